From Coq Require Import List ZArith Bool Arith Lia Permutation.
From Verif Require Import Model.Base Model.SplitFrame.
Import ListNotations.

Lemma is_element_In x l : is_element x l = true <-> In x l.
Proof. unfold is_element. rewrite existsb_exists. split; [intros (y & H & E); apply Nat.eqb_eq in E; now subst|intros H; exists x; split; [easy|apply Nat.eqb_refl]]. Qed.
Lemma is_element_not x l : is_element x l = false <-> ~ In x l.
Proof. rewrite <- is_element_In. destruct (is_element x l); split; congruence. Qed.

Lemma identical_eq a : forall b, identical a b = true <-> a = b.
Proof.
  induction a as [|x a IH]; intros [|y b]; simpl; try (split; congruence).
  rewrite andb_true_iff, Nat.eqb_eq, IH. split; [intros []; congruence|intros H; inversion H; auto].
Qed.

Lemma unique_In {A} (eqb : A -> A -> bool) (E : forall x y, eqb x y = true <-> x = y) l x : In x (unique eqb l) <-> In x l.
Proof.
  induction l as [|y l IH]; simpl; [tauto|]. rewrite filter_In, IH. split.
  - tauto.
  - intros [->|H]; [auto|]. destruct (eqb y x) eqn:Q; [left; now apply E|auto].
Qed.
Lemma unique_NoDup {A} (eqb : A -> A -> bool) (E : forall x y, eqb x y = true <-> x = y) l : NoDup (unique eqb l).
Proof.
  induction l as [|y l IH]; simpl; constructor.
  - rewrite filter_In. intros [_ H]. assert (eqb y y = true) by now apply E. rewrite H0 in H. discriminate.
  - now apply NoDup_filter.
Qed.

Lemma filter_all {A} (p : A -> bool) l : (forall x, In x l -> p x = true) -> filter p l = l.
Proof. induction l as [|x l IH]; simpl; intros H; [easy|]. rewrite (H x) by auto. f_equal. auto. Qed.
Lemma filter_none {A} (p : A -> bool) l : (forall x, In x l -> p x = false) -> filter p l = [].
Proof. induction l as [|x l IH]; simpl; intros H; [easy|]. rewrite (H x) by auto. auto. Qed.
Lemma unique_nodup l : NoDup l -> unique Nat.eqb l = l.
Proof.
  induction 1 as [|x l N D IH]; simpl; [easy|]. rewrite IH. f_equal. apply filter_all.
  intros y Hy. destruct (Nat.eqb_spec x y); [subst; tauto|easy].
Qed.
Lemma setdiff_filter x y : NoDup x -> setdiff x y = filter (fun v => negb (is_element v y)) x.
Proof. intros D. unfold setdiff. apply unique_nodup. now apply NoDup_filter. Qed.

Lemma filter_partition {A} (p : A -> bool) l : Permutation (filter p l ++ filter (fun v => negb (p v)) l) l.
Proof.
  induction l as [|x l IH]; simpl; [constructor|]. destruct (p x); simpl.
  - now constructor.
  - rewrite <- Permutation_middle. now constructor.
Qed.

(** The loop. *)
Lemma active_nth act o : active_at act o = nth (o - 1) act [].
Proof.
  unfold active_at. destruct (nth_error act (o - 1)) eqn:E; [symmetry; now apply nth_error_nth|].
  apply nth_error_None in E. now rewrite nth_overflow.
Qed.
Definition fits (act : list (list nat)) (C : list nat) (o : nat) : bool := forallb (fun i => is_element i C) (active_at act o).
Lemma fits_incl act C o : fits act C o = true <-> incl (nth (o - 1) act []) C.
Proof.
  unfold fits. rewrite active_nth, forallb_forall. unfold incl. split; intros H i Hi; specialize (H i Hi); now apply is_element_In.
Qed.

Lemma loop_spec act : forall cliques obs ext rem, NoDup obs -> add_obs_loop cliques act obs = (ext, rem) ->
  map fst ext = cliques /\ Permutation (concat (map snd ext) ++ rem) obs /\
  (forall C os o, In (C, os) ext -> In o os -> fits act C o = true) /\
  rem = filter (fun o => forallb (fun C => negb (fits act C o)) cliques) obs.
Proof.
  induction cliques as [|C cliques IH]; intros obs ext rem D E.
  - cbn in E. injection E as <- <-. cbn. repeat split; try easy. symmetry. now apply filter_all.
  - cbn [add_obs_loop] in E.
    set (here := snd (add_obs_C C act obs)) in *.
    assert (Hh : here = filter (fits act C) obs) by reflexivity.
    rewrite setdiff_filter in E by easy.
    assert (Hr : filter (fun v => negb (is_element v here)) obs = filter (fun v => negb (fits act C v)) obs).
    { apply filter_ext_in. intros v Hv. f_equal. rewrite Hh. destruct (fits act C v) eqn:Q.
      - apply is_element_In. now apply filter_In.
      - apply is_element_not. rewrite filter_In. intuition congruence. }
    rewrite Hr in E.
    destruct (add_obs_loop cliques act (filter (fun v => negb (fits act C v)) obs)) as [ext' rem'] eqn:E'.
    injection E as <- <-.
    destruct (IH _ _ _ (NoDup_filter _ D) E') as (M & P & I & R). repeat split.
    + cbn. now rewrite M.
    + cbn [map concat]. rewrite <- app_assoc, P. change (snd (add_obs_C C act obs)) with here. rewrite Hh. apply filter_partition.
    + intros C' os o [H|H] Ho; [|eauto]. unfold add_obs_C in H. injection H as <- <-. apply filter_In in Ho. exact (proj2 Ho).
    + rewrite R. clear. induction obs as [|o obs IH]; cbn; [easy|].
      destruct (fits act C o) eqn:Q; cbn; [easy|]. rewrite IH.
      now destruct (forallb (fun C0 => negb (fits act C0 o)) cliques).
Qed.

Lemma add_obs_spec cliques act obs : NoDup obs ->
  (forall ext, add_obs cliques act obs = Ok ext ->
     map fst ext = cliques /\ Permutation (concat (map snd ext)) obs /\
     (forall C os o, In (C, os) ext -> In o os -> incl (nth (o - 1) act []) C)) /\
  ((exists ext, add_obs cliques act obs = Ok ext) <->
   (forall o, In o obs -> exists C, In C cliques /\ incl (nth (o - 1) act []) C)) /\
  ((exists ext, add_obs cliques act obs = Ok ext) \/ add_obs cliques act obs = Throw RuntimeError).
Proof.
  intros D. unfold add_obs. destruct (add_obs_loop cliques act obs) as [ext rem] eqn:E.
  destruct (loop_spec _ _ _ _ _ D E) as (M & P & I & R).
  destruct (Nat.eqb_spec (length rem) 0) as [Z|Z].
  - destruct rem; [|discriminate]. rewrite app_nil_r in P. split; [|split; [split|]].
    + intros ext' H. injection H as <-. split; [exact M|]. split; [exact P|]. intros C os o H1 H2. apply fits_incl. eauto.
    + intros _ o Ho.
      assert (Q : forallb (fun C => negb (fits act C o)) cliques = false).
      { destruct (forallb (fun C => negb (fits act C o)) cliques) eqn:Q; [|easy].
        exfalso. assert (In o []) by (rewrite R; apply filter_In; auto). easy. }
      rewrite <- not_true_iff_false, forallb_forall in Q.
      destruct (Exists_dec (fun C => fits act C o = true) cliques) as [X|X]; [intros C; destruct (fits act C o); [now left|now right]| |].
      * apply Exists_exists in X. destruct X as (C & HC & F). exists C. split; [easy|now apply fits_incl].
      * exfalso. apply Q. intros C HC. destruct (fits act C o) eqn:Y; [|easy]. exfalso. apply X, Exists_exists. eauto.
    + intros _. eauto.
    + left. eauto.
  - split; [discriminate|]. split; [split|].
    + intros (e & H). discriminate.
    + intros H. exfalso. destruct rem as [|o rem]; [now apply Z|].
      assert (In o (o :: rem)) as Ho by (left; easy). rewrite R, filter_In, forallb_forall in Ho. destruct Ho as [Ho N].
      destruct (H o Ho) as (C & HC & F). apply fits_incl in F. specialize (N C HC). rewrite F in N. discriminate.
    + now right.
Qed.

(** The active sets. *)
Section Act.
Context {A : Type}.
Variables (Lam Z : csc A).
Let n := length (cs_cols Z).
Let rows o := product_rows Lam (nth o (cs_cols Z) []).
Definition nonempty {B} (l : list B) : bool := match l with [] => false | _ => true end.

Lemma triplets_eq : triplets Lam Z = concat (map (fun o => map (fun i => (i + 1, o + 1)) (rows o)) (seq 0 n)).
Proof.
  unfold triplets, rows, n. generalize (cs_cols Z) as cols. intros cols. f_equal.
  assert (G : forall k, map (fun jc : nat * list (nat * A) => map (fun i => (i + 1, fst jc + 1)) (product_rows Lam (snd jc))) (combine (seq k (length cols)) cols) =
    map (fun o => map (fun i => (i + 1, o + 1)) (product_rows Lam (nth (o - k) cols []))) (seq k (length cols))).
  { induction cols as [|c cols IH]; intros k; cbn [length seq combine map]; [easy|]. f_equal.
    - cbn [fst snd]. rewrite Nat.sub_diag. easy.
    - rewrite IH. apply map_ext_in. intros o Ho. apply in_seq in Ho. replace (o - k) with (S (o - S k)) by lia. easy. }
  rewrite G. apply map_ext. intros o. now rewrite Nat.sub_0_r.
Qed.

Lemma triplets_key l : map fst (filter (fun ij => Nat.eqb (snd ij) (l + 1)) (triplets Lam Z)) =
  if l <? n then map (fun i => i + 1) (rows l) else [].
Proof.
  rewrite triplets_eq.
  assert (G : forall k m, map fst (filter (fun ij : nat * nat => Nat.eqb (snd ij) (l + 1)) (concat (map (fun o => map (fun i => (i + 1, o + 1)) (rows o)) (seq k m)))) =
    if (k <=? l) && (l <? k + m) then map (fun i => i + 1) (rows l) else []).
  { intros k m. revert k. induction m as [|m IH]; intros k; cbn [seq map concat].
    - destruct (Nat.leb_spec k l), (Nat.ltb_spec l (k + 0)); try lia; easy.
    - rewrite filter_app, map_app, IH. destruct (Nat.eq_dec k l) as [->|N].
      + rewrite filter_all by (intros x Hx; apply in_map_iff in Hx; destruct Hx as (i & <- & _); apply Nat.eqb_refl).
        rewrite map_map. cbn [fst]. destruct (Nat.leb_spec (S l) l), (Nat.leb_spec l l), (Nat.ltb_spec l (l + S m)); try lia; cbn; now rewrite app_nil_r.
      + rewrite filter_none by (intros x Hx; apply in_map_iff in Hx; destruct Hx as (i & <- & _); apply Nat.eqb_neq; cbn; lia).
        cbn [map app]. destruct (Nat.leb_spec (S k) l), (Nat.leb_spec k l), (Nat.ltb_spec l (k + S m)), (Nat.ltb_spec l (S k + m)); try lia; easy. }
  rewrite G. cbn. easy.
Qed.

Lemma triplets_levels l : is_element (l + 1) (map snd (triplets Lam Z)) = (l <? n) && nonempty (rows l).
Proof.
  assert (K := triplets_key l). destruct (is_element (l + 1) (map snd (triplets Lam Z))) eqn:E.
  - apply is_element_In, in_map_iff in E. destruct E as ([i j] & E & H). cbn in E. subst j.
    assert (In i (map fst (filter (fun ij => Nat.eqb (snd ij) (l + 1)) (triplets Lam Z)))) as I.
    { apply in_map_iff. exists (i, l + 1). split; [easy|]. apply filter_In. split; [easy|apply Nat.eqb_refl]. }
    rewrite K in I. destruct (Nat.ltb_spec l n); [|easy]. destruct (rows l); [easy|easy].
  - apply is_element_not in E. destruct (Nat.ltb_spec l n); [|easy]. destruct (rows l) as [|i r] eqn:Q; [easy|]. exfalso. apply E.
    assert (In (i + 1) (map fst (filter (fun ij => Nat.eqb (snd ij) (l + 1)) (triplets Lam Z)))) as I by (rewrite K; left; easy).
    apply in_map_iff in I. destruct I as ([a b] & Ea & I). apply filter_In in I. destruct I as [I J]. apply Nat.eqb_eq in J. cbn in J. subst b.
    apply in_map_iff. exists (a, l + 1). auto.
Qed.
Lemma triplets_zero : is_element 0 (map snd (triplets Lam Z)) = false.
Proof.
  apply is_element_not. intros H. apply in_map_iff in H. destruct H as ([i j] & E & H). cbn in E. subst.
  rewrite triplets_eq in H. apply in_concat in H. destruct H as (l & Hl & H). apply in_map_iff in Hl. destruct Hl as (o & <- & _).
  apply in_map_iff in H. destruct H as (k & E & _). injection E. lia.
Qed.

Lemma filter_seq_bound (p : nat -> bool) a b : (forall l, p l = true -> l < a) -> a <= b -> filter p (seq 0 b) = filter p (seq 0 a).
Proof.
  intros H Hab. replace b with (a + (b - a)) by lia. rewrite seq_app, filter_app.
  rewrite (filter_none p (seq (0 + a) (b - a))); [apply app_nil_r|].
  intros x Hx. apply in_seq in Hx. destruct (p x) eqn:E; [|easy]. apply H in E. lia.
Qed.

Lemma levels_eq : levels (map snd (triplets Lam Z)) = map (fun o => o + 1) (filter (fun o => nonempty (rows o)) (seq 0 n)).
Proof.
  unfold levels. set (js := map snd (triplets Lam Z)).
  rewrite <- (filter_seq_bound (fun l => is_element l js) (S (list_max js)) (S (Nat.max (list_max js) n))).
  - rewrite (filter_seq_bound (fun l => is_element l js) (S n)).
    + cbn [seq filter]. unfold js. rewrite triplets_zero. rewrite <- seq_shift.
      assert (G : forall s, (forall l, In l s -> l < n) -> filter (fun l => is_element l (map snd (triplets Lam Z))) (map S s) =
        map (fun o => o + 1) (filter (fun o => nonempty (rows o)) s)).
      { intros s. induction s as [|o s IH]; intros Hs; cbn [map filter]; [easy|].
        replace (S o) with (o + 1) by lia. rewrite triplets_levels. assert (o < n) by (apply Hs; left; easy).
        destruct (Nat.ltb_spec o n); [|lia]. cbn [andb]. rewrite IH by (intros; apply Hs; right; easy).
        now destruct (nonempty (rows o)). }
      apply G. intros l Hl. apply in_seq in Hl. lia.
    + intros l Hl. destruct l; [lia|]. replace (S l) with (l + 1) in Hl by lia. unfold js in Hl. rewrite triplets_levels in Hl.
      apply andb_true_iff in Hl. destruct Hl as [Hl _]. apply Nat.ltb_lt in Hl. lia.
    + lia.
  - intros l Hl. apply is_element_In in Hl. assert (l <= list_max js); [|lia].
    pose proof (proj1 (list_max_le js (list_max js)) (le_n _)) as F. rewrite Forall_forall in F. auto.
  - lia.
Qed.

Lemma find_active_eq : find_active Lam Z = map (fun o => map (fun i => i + 1) (rows o)) (filter (fun o => nonempty (rows o)) (seq 0 n)).
Proof.
  unfold find_active. cbv zeta. rewrite levels_eq, map_map. apply map_ext_in. intros o Ho. apply filter_In in Ho. destruct Ho as [Ho _].
  apply in_seq in Ho. rewrite triplets_key. destruct (Nat.ltb_spec o n); [easy|lia].
Qed.
End Act.
