(** C15 (safety of hierarchize) and C16. *)
From Coq Require Import List Arith ZArith Bool Lia Reals Lra Permutation.
From Verif Require Import Model.Base Model.Counting Model.Point Model.SparseGrid Spec.GridSpec Spec.NodalSpec
  Proofs.ListLemmas Proofs.CountLemmas Proofs.PointLemmas Proofs.GridMain.
Import ListNotations.
Local Open Scope R_scope.

Definition rsum (l : list R) : R := fold_right Rplus 0 l.
Lemma rsum_app a b : rsum (a ++ b) = rsum a + rsum b.
Proof. induction a; simpl; [lra|]. rewrite IHa. lra. Qed.
Lemma rsum_ext {A} (f g : A -> R) l : (forall x, In x l -> f x = g x) -> rsum (map f l) = rsum (map g l).
Proof.
  induction l; intros H; simpl; auto. rewrite H by now left. rewrite IHl; auto. intros; apply H; now right.
Qed.
Lemma rsum_zero {A} (f : A -> R) l : (forall x, In x l -> f x = 0) -> rsum (map f l) = 0.
Proof.
  induction l; intros H; simpl; auto. rewrite H by now left. rewrite IHl; [lra|]. intros; apply H; now right.
Qed.
Lemma rsum_scal {A} (f : A -> R) c l : rsum (map (fun x => c * f x) l) = c * rsum (map f l).
Proof. induction l; simpl; [lra|]. rewrite IHl. lra. Qed.
Lemma rsum_perm l l' : Permutation l l' -> rsum l = rsum l'.
Proof. induction 1; simpl; lra. Qed.
Lemma rsum_flat {A C} (f : C -> R) (g : A -> list C) l :
  rsum (map f (flat_map g l)) = rsum (map (fun a => rsum (map f (g a))) l).
Proof. induction l; simpl; auto. rewrite map_app, rsum_app, IHl. reflexivity. Qed.

Lemma nth_upd {A} (l : list A) i j x d : (i < length l)%nat ->
  nth j (upd l i x) d = if Nat.eqb i j then x else nth j l d.
Proof.
  intros H. destruct (Nat.eqb_spec i j) as [<-|Hn].
  - apply nth_error_nth. now apply nth_error_upd_eq.
  - revert i j H Hn. induction l; intros [|i] [|j] H Hn; simpl in *; try lia; auto. apply IHl; lia.
Qed.
Lemma vec_at_nth (l : list R) i : (i < length l)%nat -> vec_at l i = Ok (nth i l 0).
Proof. intros H. apply vec_at_Ok. now apply nth_error_nth'. Qed.
Lemma vec_get_nth {A} (l : list A) i d : (i < length l)%nat -> vec_get l i = Ok (nth i l d).
Proof. intros H. apply vec_get_Ok. now apply nth_error_nth'. Qed.

Section G.
Variables (b : basis) (k : nat) (D : R -> Prop) (xk : nat -> nat -> R) (phi : nat -> nat -> R -> R).
Hypothesis TB : total_basis b k D xk phi.
Variable d : nat.
Hypothesis Hd : (0 < d)%nat.
Notation N := (findNumGridPoints d k).

Definition ix (ls ps : list nat) : nat := Z.to_nat (idx ls ps).
Definition gp (ls ps : list nat) : Prop := grid_point d k ls ps.

Lemma gp_fits ls ps : gp ls ps -> fits ls ps. Proof. intros H; apply H. Qed.
Lemma gp_len ls ps : gp ls ps -> length ls = d. Proof. intros H; apply H. Qed.
Lemma gp_ix ls ps : gp ls ps -> (ix ls ps < N)%nat.
Proof.
  intros (L & L' & S & F). unfold ix. apply (idx_le_k d k ls ps Hd L F) in S.
  pose proof (idx_nonneg ls ps (ne_of_len _ _ Hd L) F). lia.
Qed.
Lemma gp_advances ls ps : gp ls ps ->
  advances (ix ls ps) (point_new d) = Ok (mkPoint (idx ls ps) ls ps (list_sum ls)).
Proof. intros (L & L' & S & F). now apply at_index. Qed.
Lemma gp_inj ls ps ls' ps' : gp ls ps -> gp ls' ps' -> ix ls ps = ix ls' ps' -> ls = ls' /\ ps = ps'.
Proof.
  intros (L & L' & S & F) (L1 & L1' & S1 & F1) E. unfold ix in E.
  pose proof (idx_nonneg ls ps (ne_of_len _ _ Hd L) F).
  pose proof (idx_nonneg ls' ps' (ne_of_len _ _ Hd L1) F1).
  apply idx_inj; auto; try lia. eapply ne_of_len; eauto.
Qed.
Lemma point_at i : (i < N)%nat -> exists ls ps, gp ls ps /\ ix ls ps = i /\
  advances i (point_new d) = Ok (mkPoint (Z.of_nat i) ls ps (list_sum ls)).
Proof.
  intros Hi. destruct (advances_spec d i Hd) as (p & E & (L & F & S & I) & In).
  exists (p_levels p), (p_positions p). pose proof (fits_len _ _ F).
  split. { split; [auto|]. split; [congruence|]. split; auto. apply (idx_le_k d k _ _ Hd L F). lia. }
  split. { unfold ix. rewrite <- I, In. lia. }
  rewrite E. f_equal. destruct p; simpl in *. congruence.
Qed.
Lemma gp_level ls ps t l : gp ls ps -> nth_error ls t = Some l -> (l <= k)%nat.
Proof. intros (_ & _ & S & _) E. apply list_sum_nth in E. lia. Qed.
Lemma gp_upd ls ps t lev s : gp ls ps -> nth_error ls t = Some lev -> (fst s <= lev)%nat -> (snd s < 2 ^ fst s)%nat ->
  gp (upd ls t (fst s)) (upd ps t (snd s)).
Proof.
  intros (L & L' & S & F) E H1 H2. split; [now rewrite upd_length|]. split; [now rewrite upd_length|].
  split; [pose proof (list_sum_upd ls t (fst s) lev E); lia|]. now apply fits_upd.
Qed.

(** ** One pass *)
Definition ph (s : nat * nat) (y : R) : R := phi (fst s) (snd s) y.
Definition val (cs : list R) (i : nat) : R := nth i cs 0.

Lemma subtract_fold ls ps t lev knot i : gp ls ps -> nth_error ls t = Some lev ->
  forall ss cs, (forall s, In s ss -> In s (below lev) /\ (ix (upd ls t (fst s)) (upd ps t (snd s)) < i)%nat) ->
  (i < length cs)%nat -> D knot ->
  foldM (subtract_step b t knot i) (map (repl ls ps t) ss) cs =
  Ok (upd cs i (val cs i - rsum (map (fun s => val cs (ix (upd ls t (fst s)) (upd ps t (snd s))) * ph s knot) ss))).
Proof.
  intros G E. assert (Ht : (t < length ls)%nat) by (apply nth_error_Some; congruence).
  pose proof (fits_len _ _ (gp_fits _ _ G)) as FL.
  induction ss as [|s ss IH]; intros cs Hs Hi HD; cbn [map foldM].
  - f_equal. cbn [rsum fold_right map]. rewrite Rminus_0_r. symmetry. apply upd_same. unfold val.
    now apply nth_error_nth'.
  - destruct (Hs s (or_introl eq_refl)) as [Hb Hlt]. unfold subtract_step at 1.
    destruct s as [l j]. rewrite getLevel_repl, getPosition_repl by auto.
    unfold repl at 1 2. cbn [p_index fst snd]. cbn [fst snd] in Hlt.
    pose proof (proj1 (below_In lev (l, j)) Hb) as Hb'. cbn [fst snd] in Hb'.
    assert (G' : gp (upd ls t l) (upd ps t j)).
    { apply (gp_upd ls ps t lev (l, j)); auto; simpl; lia. }
    pose proof (idx_nonneg _ _ (ne_of_len _ _ Hd (gp_len _ _ G')) (gp_fits _ _ G')) as H0.
    destruct (Z.ltb_spec (idx (upd ls t l) (upd ps t j)) 0); [lia|]. fold (ix (upd ls t l) (upd ps t j)).
    rewrite (vec_at_nth cs) by lia. cbn [bind].
    pose proof (gp_level _ _ t _ G E) as Hk.
    rewrite (tb_eval _ _ _ _ _ TB l j) by (exact HD || lia). cbn [bind]. rewrite (vec_at_nth cs i) by auto. cbn [bind].
    rewrite IH.
    + rewrite upd_upd. do 2 f_equal. cbn [map rsum fold_right fst snd]. fold (rsum).
      unfold val. rewrite nth_upd by auto. rewrite Nat.eqb_refl.
      rewrite (rsum_ext (fun s => nth (ix (upd ls t (fst s)) (upd ps t (snd s)))
          (upd cs i (nth i cs 0 - nth (ix (upd ls t l) (upd ps t j)) cs 0 * phi l j knot)) 0 * ph s knot)
        (fun s => nth (ix (upd ls t (fst s)) (upd ps t (snd s))) cs 0 * ph s knot)).
      * unfold ph. simpl. fold (rsum (map (fun s => nth (ix (upd ls t (fst s)) (upd ps t (snd s))) cs 0 * phi (fst s) (snd s) knot) ss)). lra.
      * intros x Hx. rewrite nth_upd by auto. destruct (Nat.eqb_spec i (ix (upd ls t (fst x)) (upd ps t (snd x)))) as [e|]; auto.
        destruct (Hs x (or_intror Hx)). lia.
    + intros x Hx. apply Hs. now right.
    + now rewrite upd_length.
    + exact HD.
Qed.

Definition solves (t : nat) (cs cs' : list R) (ls ps : list nat) : Prop :=
  forall lev pos, nth_error ls t = Some lev -> nth_error ps t = Some pos ->
  val cs' (ix ls ps) = val cs (ix ls ps) -
    rsum (map (fun s => val cs' (ix (upd ls t (fst s)) (upd ps t (snd s))) * ph s (xk lev pos)) (below lev)).

Lemma parent_lt ls ps t lev s : gp ls ps -> nth_error ls t = Some lev -> In s (below lev) ->
  (ix (upd ls t (fst s)) (upd ps t (snd s)) < ix ls ps)%nat.
Proof.
  intros G E Hs. pose proof (gp_len _ _ G). unfold ix.
  pose proof (repl_index_lt ls ps t lev s ltac:(lia) (gp_fits _ _ G) E Hs). lia.
Qed.

Lemma hier_pass_spec t cs : (t < d)%nat -> length cs = N ->
  exists cs', hier_pass b d cs t = Ok cs' /\ length cs' = N /\ forall ls ps, gp ls ps -> solves t cs cs' ls ps.
Proof.
  intros Ht Hl. unfold hier_pass. rewrite Hl.
  destruct (foldM_seq_inv (hier_step b t)
    (fun i s => length (fst s) = N /\ advances i (point_new d) = Ok (snd s) /\
       (forall j, (i <= j)%nat -> val (fst s) j = val cs j) /\
       forall ls ps, gp ls ps -> (ix ls ps < i)%nat -> solves t cs (fst s) ls ps) N 0 (cs, point_new d))
    as ((cs', p') & E & H1 & H2 & H3 & H4).
  - simpl. split; auto. split; auto. split; auto. intros; lia.
  - intros i (ci, p) Hi (A1 & A2 & A3 & A4). cbn [fst snd] in *.
    destruct (point_at i) as (ls & ps & G & Ei & Ep); [lia|]. rewrite Ep in A2. injection A2 as A2. subst p.
    pose proof (fits_len _ _ (gp_fits _ _ G)) as FL. pose proof (gp_len _ _ G) as GL.
    destruct (nth_error ls t) as [lev|] eqn:El; [|apply nth_error_None in El; lia].
    destruct (nth_error ps t) as [pos|] eqn:Eq; [|apply nth_error_None in Eq; lia].
    unfold hier_step, getGridPointInDirection. cbn [p_levels p_positions].
    rewrite (vec_get_Ok _ _ _ El), (vec_get_Ok _ _ _ Eq). cbn [bind].
    rewrite (tb_knot _ _ _ _ _ TB); [|eapply gp_level; eauto|exact (fits_nth ls ps t lev pos (gp_fits _ _ G) El Eq)]. cbn [bind].
    rewrite (parents_spec ls ps t FL ltac:(lia) _ _ lev El). cbn [bind].
    rewrite (subtract_fold ls ps t lev) with (2 := El); auto; [|intros s Hs; split; auto; rewrite <- Ei; now apply (parent_lt ls ps t lev)|lia|
      apply (tb_domain _ _ _ _ _ TB); [eapply gp_level; eauto|exact (fits_nth ls ps t lev pos (gp_fits _ _ G) El Eq)]].
    cbn [bind].
    destruct (advances_spec d (S i) Hd) as (q & Eq' & _). pose proof Eq' as Eq2. cbn [advances] in Eq'. rewrite Ep in Eq'.
    cbn [bind] in Eq'. rewrite Eq'. cbn [bind]. eexists. split; [reflexivity|].
    cbn [fst snd]. split; [now rewrite upd_length|]. split; [exact Eq2|]. split.
    + intros j Hj. unfold val. rewrite nth_upd by lia. destruct (Nat.eqb_spec i j); [lia|]. apply A3. lia.
    + intros ls' ps' G' Hlt lev' pos' E1 E2.
      set (nv := val ci i - rsum _).
      assert (Hx : forall s, In s (below lev') -> val (upd ci i nv)
           (ix (upd ls' t (fst s)) (upd ps' t (snd s))) = val ci (ix (upd ls' t (fst s)) (upd ps' t (snd s)))).
      { intros s Hs. unfold val at 1. rewrite nth_upd by lia.
        pose proof (parent_lt ls' ps' t lev' s G' E1 Hs).
        destruct (Nat.eqb_spec i (ix (upd ls' t (fst s)) (upd ps' t (snd s)))); [lia|reflexivity]. }
      rewrite (rsum_ext (fun s => val (upd ci i nv) (ix (upd ls' t (fst s)) (upd ps' t (snd s))) * ph s (xk lev' pos'))
        (fun s => val ci (ix (upd ls' t (fst s)) (upd ps' t (snd s))) * ph s (xk lev' pos'))).
      2:{ intros s Hs. rewrite Hx by auto. reflexivity. }
      unfold val at 1. rewrite nth_upd by lia. destruct (Nat.eqb_spec i (ix ls' ps')) as [e|ne].
      * destruct (gp_inj ls ps ls' ps') as [<- <-]; auto; [lia|].
        rewrite <- e. rewrite El in E1. injection E1 as <-. rewrite Eq in E2. injection E2 as <-.
        unfold nv. rewrite (A3 i) by lia. reflexivity.
      * apply (A4 ls' ps' G' ltac:(lia) lev' pos' E1 E2).
  - rewrite E. cbn [bind]. exists cs'. split; auto. split; auto.
    intros ls ps G. apply H4; auto. simpl. now apply gp_ix.
Qed.

Lemma hier_all_spec : forall n a cs, (a + n <= d)%nat -> length cs = N ->
  exists css, length css = S n /\ hd [] css = cs /\ (forall c, In c css -> length c = N) /\
    foldM (hier_pass b d) (seq a n) cs = Ok (last css []) /\
    forall m, (m < n)%nat -> forall ls ps, gp ls ps -> solves (a + m) (nth m css []) (nth (S m) css []) ls ps.
Proof.
  induction n; intros a cs Ha Hl.
  - exists [cs]. simpl. split; auto. split; auto. split; [intros c [<-|[]]; auto|]. split; auto. intros; lia.
  - destruct (hier_pass_spec a cs ltac:(lia) Hl) as (cs1 & E1 & L1 & S1).
    destruct (IHn (S a) cs1 ltac:(lia) L1) as (css & A1 & A2 & A3 & A4 & A5).
    exists (cs :: css). simpl. split; [congruence|]. split; auto.
    split. { intros c [<-|Hc]; auto. }
    split. { rewrite E1. cbn [bind]. rewrite A4. destruct css; [discriminate|reflexivity]. }
    intros [|m] Hm ls ps G.
    + rewrite Nat.add_0_r. destruct css as [|c1 css]; [discriminate|]. simpl in A2. subst c1. simpl. auto.
    + pose proof (A5 m ltac:(lia) ls ps G) as H. replace (S a + m)%nat with (a + S m)%nat in H by lia. exact H.
Qed.

(** ** Tensor sums *)
Section NB.
Hypothesis NB : nodal k xk phi.
Notation nodes := (list (nat * nat)).
Definition upto (l : nat) : nodes := below (S l).
Arguments upto : simpl never.
Lemma upto_split l : upto l = below l ++ row l.
Proof. unfold upto, below, rows. rewrite seq_S, flat_map_app. simpl. now rewrite app_nil_r. Qed.
Definition xn (r : nat * nat) : R := xk (fst r) (snd r).

Fixpoint En (n : nat) (c : nodes) (v : nodes -> R) : R :=
  match n, c with
  | S n', r :: c' => rsum (map (fun s => ph s (xn r) * En n' c' (fun q => v (s :: q))) (upto (fst r)))
  | _, _ => v c
  end.
Definition At (t : nat) (v : nodes -> R) (c : nodes) : R :=
  match nth_error c t with
  | Some r => rsum (map (fun s => ph s (xn r) * v (upd c t s)) (upto (fst r)))
  | None => 0
  end.
Lemma En_step : forall n c v, (n < length c)%nat -> En (S n) c v = En n c (At n v).
Proof.
  induction n; intros [|r c] v H; simpl in H; try lia.
  - reflexivity.
  - change (En (S (S n)) (r :: c) v) with (rsum (map (fun s => ph s (xn r) * En (S n) c (fun q => v (s :: q))) (upto (fst r)))).
    change (En (S n) (r :: c) (At (S n) v)) with (rsum (map (fun s => ph s (xn r) * En n c (fun q => At (S n) v (s :: q))) (upto (fst r)))).
    apply rsum_ext. intros s Hs. rewrite IHn by lia. reflexivity.
Qed.
Definition under (q c : nodes) : Prop := Forall2 (fun s r => In s (upto (fst r))) q c.
Definition good (r : nat * nat) : Prop := (snd r < 2 ^ fst r)%nat.
Lemma under_refl c : Forall good c -> under c c.
Proof. induction 1; constructor; auto. apply below_In. split; auto. Qed.
Lemma En_ext : forall n c v w, Forall good c -> (forall q, under q c -> v q = w q) -> En n c v = En n c w.
Proof.
  induction n; intros c v w Hg H.
  - simpl. apply H. now apply under_refl.
  - destruct c as [|r c]; cbn [En]; [apply H; constructor|]. inversion Hg; subst.
    apply rsum_ext. intros s Hs. f_equal. apply IHn; auto. intros q Hq. apply H. constructor; auto.
Qed.

(** full tensor sum as a sum over a box *)
Fixpoint box (c : nodes) : list nodes :=
  match c with
  | [] => [[]]
  | r :: c' => flat_map (fun s => map (cons s) (box c')) (upto (fst r))
  end.
Fixpoint tp (q : nodes) (xs : list R) : R :=
  match q, xs with
  | s :: q', y :: xs' => ph s y * tp q' xs'
  | _, _ => 1
  end.
Lemma En_box : forall c v, En (length c) c v = rsum (map (fun q => v q * tp q (map xn c)) (box c)).
Proof.
  induction c as [|r c IH]; intros v.
  - simpl. lra.
  - cbn [length box]. rewrite rsum_flat.
    change (En (S (length c)) (r :: c) v) with (rsum (map (fun s => ph s (xn r) * En (length c) c (fun q => v (s :: q))) (upto (fst r)))).
    apply rsum_ext. intros s Hs. rewrite IH, map_map, <- rsum_scal. apply rsum_ext. intros q Hq. simpl. lra.
Qed.
Lemma box_In : forall c q, In q (box c) <-> under q c.
Proof.
  induction c as [|r c IH]; intros q; cbn [box].
  - simpl. split; [intros [<-|[]]; constructor|]. intros H; inversion H; auto.
  - rewrite in_flat_map. split.
    + intros (s & Hs & Hq). apply in_map_iff in Hq. destruct Hq as (q' & <- & Hq'). constructor; auto. now apply IH.
    + intros H. inversion H; subst. exists x. split; auto. apply in_map_iff. exists l. split; auto. now apply IH.
Qed.
Lemma NoDup_flat {A C} (f : A -> list C) l : NoDup l -> (forall a, In a l -> NoDup (f a)) ->
  (forall a a' y, In y (f a) -> In y (f a') -> a = a') -> NoDup (flat_map f l).
Proof.
  induction 1; intros H1 H2; simpl; [constructor|]. apply NoDup_app_disj.
  - apply H1; now left.
  - apply IHNoDup; auto. intros; apply H1; now right.
  - intros y Hy Hy'. apply in_flat_map in Hy'. destruct Hy' as (a' & Ha' & Hy').
    assert (x = a') by (eapply H2; eauto). subst. auto.
Qed.
Lemma box_NoDup c : NoDup (box c).
Proof.
  induction c as [|r c IH]; cbn [box]; [repeat constructor; auto|]. apply NoDup_flat.
  - apply rows_NoDup.
  - intros s _. apply NoDup_map_in; auto. intros x y _ _ E. congruence.
  - intros s s' y H1 H2. apply in_map_iff in H1. apply in_map_iff in H2.
    destruct H1 as (q & <- & _), H2 as (q' & E & _). congruence.
Qed.
Lemma tp_zero : forall q c, length q = length c -> (forall s, In s q -> (fst s <= k)%nat /\ good s) ->
  (forall r, In r c -> (fst r <= k)%nat /\ good r) -> ~ under q c -> tp q (map xn c) = 0.
Proof.
  induction q as [|s q IH]; intros [|r c] Hl Hq Hc Hn; simpl in Hl; try discriminate.
  - exfalso. apply Hn. constructor.
  - simpl. destruct (le_lt_dec (fst s) (fst r)) as [H|H].
    + rewrite IH; [lra|lia| | |].
      * intros; apply Hq; now right. * intros; apply Hc; now right.
      * intros Hu. apply Hn. constructor; auto. apply below_In.
        destruct (Hq s (or_introl eq_refl)). split; [lia|auto].
    + destruct (Hq s (or_introl eq_refl)) as [Hs1 Hs2], (Hc r (or_introl eq_refl)) as [Hr1 Hr2].
      unfold ph, xn. rewrite NB; auto; try lia. destruct (Nat.eqb_spec (fst r) (fst s)); [lia|]. simpl. lra.
Qed.

Definition pair_dec (x y : nat * nat) : {x = y} + {x <> y}.
Proof. decide equality; apply Nat.eq_dec. Defined.
Lemma rsum_subset {A} (dec : forall x y : A, {x = y} + {x <> y}) (F : A -> R) l l' : NoDup l -> NoDup l' -> incl l' l ->
  (forall x, In x l -> ~ In x l' -> F x = 0) -> rsum (map F l) = rsum (map F l').
Proof.
  intros N1 N2 Hi Hz.
  set (rest := filter (fun x => if in_dec dec x l' then false else true) l).
  assert (P : Permutation l (l' ++ rest)).
  { apply NoDup_Permutation; auto.
    - apply NoDup_app_disj; auto; [apply NoDup_filter; auto|]. intros x Hx Hr. apply filter_In in Hr.
      destruct (in_dec dec x l'); [destruct Hr; discriminate|tauto].
    - intros x. rewrite in_app_iff. unfold rest. rewrite filter_In. destruct (in_dec dec x l'); split; intros H; auto.
      + destruct H as [H|[H _]]; [contradiction|auto]. }
  rewrite (rsum_perm _ _ (Permutation_map F P)), map_app, rsum_app.
  rewrite (rsum_zero F rest); [lra|]. intros x Hx. apply filter_In in Hx. destruct Hx as [H1 H2].
  apply Hz; auto. destruct (in_dec dec x l'); [discriminate|auto].
Qed.

(** coordinates as pairs *)
Definition V (cs : list R) (c : nodes) : R := val cs (ix (map fst c) (map snd c)).
Definition gpc (c : nodes) : Prop := gp (map fst c) (map snd c).
Lemma gpc_good c : gpc c -> Forall good c.
Proof.
  intros (_ & _ & _ & F). induction c; constructor; inversion F; subst; auto.
Qed.
Lemma gpc_len c : gpc c -> length c = d.
Proof. intros (L & _). now rewrite map_length in L. Qed.
Lemma gpc_k c : gpc c -> forall s, In s c -> (fst s <= k)%nat /\ good s.
Proof.
  intros G s Hs. split.
  - apply (in_map fst) in Hs. apply In_nth_error in Hs. destruct Hs as (n & Hn). eapply gp_level; eauto.
  - pose proof (gpc_good c G) as H. rewrite Forall_forall in H. auto.
Qed.
Lemma under_sum q c : under q c -> (list_sum (map fst q) <= list_sum (map fst c))%nat.
Proof. induction 1; simpl; auto. apply below_In in H. lia. Qed.
Lemma under_gpc q c : gpc c -> under q c -> gpc q.
Proof.
  intros (L & L' & S & F) Hu. assert (Hl : length q = length c) by (clear - Hu; induction Hu; simpl; congruence).
  rewrite map_length in *. split; [rewrite map_length; lia|]. split; [rewrite map_length; lia|].
  split; [pose proof (under_sum _ _ Hu); lia|].
  clear - Hu. induction Hu; simpl; constructor; auto. apply below_In in H. tauto.
Qed.

Lemma solves_At t cs cs' c : (t < d)%nat -> gpc c -> solves t cs cs' (map fst c) (map snd c) -> V cs c = At t (V cs') c.
Proof.
  intros Ht G Hs. unfold At. pose proof (gpc_len c G) as Hl.
  destruct (nth_error c t) as [r|] eqn:E; [|apply nth_error_None in E; lia].
  specialize (Hs (fst r) (snd r) (map_nth_error fst _ _ E) (map_nth_error snd _ _ E)).
  rewrite upto_split, map_app, rsum_app.
  assert (Hrow : rsum (map (fun s => ph s (xn r) * V cs' (upd c t s)) (row (fst r))) = V cs' c).
  { destruct (gpc_k c G r) as [Hk Hg]. { eapply nth_error_In; eauto. }
    rewrite (rsum_subset pair_dec _ (row (fst r)) [r]).
    - simpl. unfold ph, xn. rewrite NB; auto. rewrite !Nat.eqb_refl. simpl. rewrite upd_same by auto. lra.
    - apply row_NoDup.
    - repeat constructor. auto.
    - intros x [<-|[]]. apply row_In. auto.
    - intros x Hx Hn. apply row_In in Hx. destruct Hx as [H1 H2]. unfold ph, xn. rewrite H1.
      rewrite NB; auto. destruct (Nat.eqb_spec (snd r) (snd x)) as [e|]; [|rewrite andb_false_r; lra].
      exfalso. apply Hn. left. destruct r, x; simpl in *. congruence. }
  rewrite Hrow. unfold V at 1. unfold V at 2. rewrite Hs.
  erewrite rsum_ext with (f := fun s => ph s (xn r) * V cs' (upd c t s)).
  2:{ intros s _. unfold V. rewrite !upd_map. rewrite Rmult_comm. reflexivity. }
  unfold xn. lra.
Qed.

Lemma hier_En css : length css = S d ->
  (forall m, (m < d)%nat -> forall ls ps, gp ls ps -> solves m (nth m css []) (nth (S m) css []) ls ps) ->
  forall c, gpc c -> forall m, (m <= d)%nat -> V (nth 0 css []) c = En m c (V (nth m css [])).
Proof.
  intros Hl Hs c G. induction m; intros Hm; [reflexivity|].
  rewrite En_step by (rewrite (gpc_len c G); lia). rewrite IHm by lia.
  apply En_ext; [now apply gpc_good|]. intros q Hq. apply solves_At; [lia| |].
  - eapply under_gpc; eauto.
  - apply Hs; [lia|]. exact (under_gpc q c G Hq).
Qed.

(** all points of the grid, as pairs *)
Definition pairs (i : nat) : nodes :=
  match advances i (point_new d) with Ok p => combine (p_levels p) (p_positions p) | _ => [] end.
Definition all : list nodes := map pairs (seq 0 N).
Lemma map_combine (a c : list nat) : length c = length a -> map fst (combine a c) = a /\ map snd (combine a c) = c.
Proof.
  revert c. induction a; intros [|y c] H; simpl in *; try discriminate; auto.
  destruct (IHa c) as [H1 H2]; [lia|]. now rewrite H1, H2.
Qed.
Lemma combine_map (c : nodes) : combine (map fst c) (map snd c) = c.
Proof. induction c as [|[a b'] c IH]; simpl; congruence. Qed.
Lemma pairs_spec i : (i < N)%nat -> gpc (pairs i) /\ ix (map fst (pairs i)) (map snd (pairs i)) = i /\
  advances i (point_new d) = Ok (mkPoint (Z.of_nat i) (map fst (pairs i)) (map snd (pairs i)) (list_sum (map fst (pairs i)))).
Proof.
  intros Hi. destruct (point_at i Hi) as (ls & ps & G & Ei & Ep). unfold pairs. rewrite Ep. cbn [p_levels p_positions].
  destruct (map_combine ls ps) as [M1 M2]. { now apply fits_len, gp_fits. }
  unfold gpc. rewrite M1, M2. auto.
Qed.
Lemma pairs_ix c : gpc c -> pairs (ix (map fst c) (map snd c)) = c.
Proof. intros G. unfold pairs. rewrite gp_advances by exact G. apply combine_map. Qed.
Lemma all_In c : In c all <-> gpc c.
Proof.
  unfold all. rewrite in_map_iff. split.
  - intros (i & <- & Hi). apply in_seq in Hi. apply pairs_spec. lia.
  - intros G. exists (ix (map fst c) (map snd c)). split; [now apply pairs_ix|]. apply in_seq.
    pose proof (gp_ix _ _ G). lia.
Qed.
Lemma all_NoDup : NoDup all.
Proof.
  apply NoDup_map_in; [apply seq_NoDup|]. intros x y Hx Hy E. apply in_seq in Hx. apply in_seq in Hy.
  destruct (pairs_spec x) as (_ & E1 & _), (pairs_spec y) as (_ & E2 & _); try lia. rewrite E in E1. congruence.
Qed.

(** ** interpolate *)
Lemma computeBasis_spec p xs c : p_levels p = map fst c -> p_positions p = map snd c -> length xs = length c -> List.Forall D xs ->
  (forall s, In s c -> (fst s <= k)%nat /\ good s) -> computeBasis p xs b = Ok (tp c xs).
Proof.
  intros HL HP Hx HD Hc. unfold computeBasis. rewrite HL, map_length.
  enough (forall c2 c1 x1 x2 acc, c = c1 ++ c2 -> xs = x1 ++ x2 -> length c1 = length x1 -> length c2 = length x2 ->
    foldM (fun ret t => xt <- vec_get xs t ;; lev <- vec_get (map fst c) t ;; pos <- vec_get (p_positions p) t ;;
       e <- b_evaluate b xt lev pos ;; Ok (ret * e)) (seq (length c1) (length c2)) acc = Ok (acc * tp c2 x2)) as H.
  { etransitivity; [exact (H c [] [] xs 1 eq_refl eq_refl eq_refl (eq_sym Hx))|]. f_equal. lra. }
  induction c2 as [|s c2 IH]; intros c1 x1 x2 acc E1 E2 L1 L2; destruct x2 as [|y x2]; simpl in L2; try discriminate.
  - simpl. f_equal. lra.
  - cbn [length seq foldM].
    assert (Ec : nth_error c (length c1) = Some s) by (rewrite E1, nth_error_app2, Nat.sub_diag; auto).
    assert (Ex : nth_error xs (length c1) = Some y) by (rewrite E2, L1, nth_error_app2, Nat.sub_diag; auto).
    rewrite (vec_get_Ok _ _ _ Ex), (vec_get_Ok _ _ _ (map_nth_error fst _ _ Ec)).
    rewrite HP, (vec_get_Ok _ _ _ (map_nth_error snd _ _ Ec)). cbn [bind].
    destruct (Hc s) as [Hk Hg]; [eapply nth_error_In; eauto|].
    rewrite (tb_eval _ _ _ _ _ TB) by (auto; rewrite Forall_forall in HD; apply HD; eapply nth_error_In; eauto). cbn [bind].
    pose proof (IH (c1 ++ [s]) (x1 ++ [y]) x2 (acc * phi (fst s) (snd s) y)) as H.
    rewrite app_length, Nat.add_1_r in H. rewrite <- HP. rewrite H.
    + f_equal. simpl. unfold ph. lra.
    + now rewrite <- app_assoc. + now rewrite <- app_assoc. + rewrite !app_length. simpl. lia. + lia.
Qed.

Definition interp_sum (cs : list R) (xs : list R) : R := rsum (map (fun i => val cs i * tp (pairs i) xs) (seq 0 N)).

Lemma interp_spec g xs : sg_d g = d -> size g = N -> length xs = d -> List.Forall D xs ->
  exists p, foldM (interp_step g xs b) (seq 0 (size g)) (0, point_new (sg_d g)) =
    Ok (interp_sum (sg_coefficients g) xs, p).
Proof.
  intros Hgd Hs Hx HD. rewrite Hs, Hgd. unfold size in Hs.
  destruct (foldM_seq_inv (interp_step g xs b)
    (fun i s => fst s = rsum (map (fun i => val (sg_coefficients g) i * tp (pairs i) xs) (seq 0 i)) /\
       ((i < N)%nat -> advances i (point_new d) = Ok (snd s))) N 0 (0, point_new d))
    as ((r & p) & E & H1 & H2).
  - simpl. auto.
  - intros i (ret, p) Hi (A1 & A2). simpl in A1, A2. specialize (A2 ltac:(lia)).
    unfold interp_step. destruct (pairs_spec i) as (G & _ & Ep); [lia|]. rewrite Ep in A2. injection A2 as A2. subst p.
    rewrite (vec_get_nth _ i 0) by lia. cbn [bind].
    rewrite (computeBasis_spec _ xs (pairs i)); auto; [|rewrite (gpc_len _ G); auto|now apply gpc_k]. cbn [bind].
    unfold size. rewrite Hs.
    assert (Hsum : ret + nth i (sg_coefficients g) 0 * tp (pairs i) xs =
        rsum (map (fun i => val (sg_coefficients g) i * tp (pairs i) xs) (seq 0 (S i)))).
    { rewrite seq_S, map_app, rsum_app, A1. simpl. unfold val. lra. }
    destruct (Nat.ltb_spec i (N - 1)).
    + destruct (advances_spec d (S i) Hd) as (q & Eq & _). pose proof Eq as Eq2. cbn [advances] in Eq. rewrite Ep in Eq.
      cbn [bind] in Eq. rewrite Eq. cbn [bind]. eexists. split; [reflexivity|]. split; auto.
    + cbn [bind]. eexists. split; [reflexivity|]. split; auto. intros; lia.
  - exists p. rewrite E. cbn [fst] in H1. rewrite H1. reflexivity.
Qed.

Lemma interp_En cs c : gpc c -> interp_sum cs (map xn c) = En d c (V cs).
Proof.
  intros G. rewrite <- (gpc_len c G). rewrite En_box. unfold interp_sum.
  transitivity (rsum (map (fun q => V cs q * tp q (map xn c)) all)).
  - unfold all. rewrite map_map. apply rsum_ext. intros i Hi. apply in_seq in Hi. unfold V.
    destruct (pairs_spec i) as (_ & E & _); [lia|]. now rewrite E.
  - apply rsum_subset.
    + decide equality. decide equality; apply Nat.eq_dec.
    + apply all_NoDup.
    + apply box_NoDup.
    + intros q Hq. apply all_In. apply box_In in Hq. eapply under_gpc; eauto.
    + intros q Hq Hn. rewrite tp_zero; [lra| | | |].
      * apply all_In in Hq. now rewrite (gpc_len q Hq), (gpc_len c G).
      * apply gpc_k. now apply all_In. * now apply gpc_k. * now rewrite <- box_In.
Qed.
End NB.

(** ** initializeStorage *)
Lemma gridPoint_spec p c : p_levels p = map fst c -> p_positions p = map snd c ->
  (forall s, In s c -> (fst s <= k)%nat /\ good s) -> getGridPoint p b = Ok (map xn c).
Proof.
  intros HL HP Hc. unfold getGridPoint. rewrite HL, map_length.
  enough (forall c2 c1, c = c1 ++ c2 ->
    mapM (fun t => getGridPointInDirection p t b) (seq (length c1) (length c2)) = Ok (map xn c2)) as H.
  { apply (H c []); auto. }
  induction c2 as [|s c2 IH]; intros c1 E1; [reflexivity|]. cbn [length seq mapM].
  assert (Ec : nth_error c (length c1) = Some s) by (rewrite E1, nth_error_app2, Nat.sub_diag; auto).
  unfold getGridPointInDirection at 1. rewrite HL, HP.
  rewrite (vec_get_Ok _ _ _ (map_nth_error fst _ _ Ec)), (vec_get_Ok _ _ _ (map_nth_error snd _ _ Ec)). cbn [bind].
  destruct (Hc s) as [Hk Hg]; [eapply nth_error_In; eauto|].
  rewrite (tb_knot _ _ _ _ _ TB) by auto. cbn [bind].
  pose proof (IH (c1 ++ [s])) as H. rewrite app_length, Nat.add_1_r in H. rewrite H by now rewrite <- app_assoc.
  reflexivity.
Qed.

Lemma N_pos : (0 < N)%nat.
Proof.
  rewrite numGrid_N3 by auto. rewrite Nat.add_1_r. cbn [N3].
  pose proof (B_pos (d - 1) k). pose proof (pow2_pos k). nia.
Qed.

Lemma storage_spec f g : sg_d g = d -> size g = N ->
  exists g' m, initializeStorage f b g = Ok g' /\ sg_d g' = d /\ size g' = N /\ sg_bound g' = Some m /\
    (forall i, (i < N)%nat -> val (sg_coefficients g') i = f (map xn (pairs i)) /\ val (sg_coefficients g') i <= m) /\
    (exists i, (i < N)%nat /\ val (sg_coefficients g') i = m).
Proof.
  intros Hgd Hs. unfold initializeStorage. rewrite Hs, Hgd. unfold size in Hs.
  destruct (foldM_seq_inv (storage_step f b N)
    (fun i s => length (fst (fst s)) = N /\
       ((i < N)%nat -> advances i (point_new d) = Ok (snd s)) /\
       (forall j, (j < i)%nat -> val (fst (fst s)) j = f (map xn (pairs j))) /\
       ((0 < i)%nat -> exists m, snd (fst s) = Some m /\ (forall j, (j < i)%nat -> val (fst (fst s)) j <= m) /\
           exists j, (j < i)%nat /\ val (fst (fst s)) j = m)) N 0 (sg_coefficients g, None, point_new d))
    as (((cs & m) & p) & E & H1 & H2 & H3 & H4).
  - simpl. split; auto. split; auto. split; intros; lia.
  - intros i ((cs, m), p) Hi (A1 & A2 & A3 & A4). cbn [fst snd] in *. specialize (A2 ltac:(lia)).
    destruct (pairs_spec i) as (G & _ & Ep); [lia|]. rewrite Ep in A2. injection A2 as A2. subst p.
    unfold storage_step. rewrite (gridPoint_spec _ (pairs i)); auto; [|now apply gpc_k]. cbn [bind].
    rewrite (vec_at_nth cs i) by lia. cbn [bind].
    set (fv := f (map xn (pairs i))).
    assert (N1 : nth i (upd cs i fv) 0 = fv) by (rewrite nth_upd by lia; now rewrite Nat.eqb_refl).
    rewrite (vec_at_nth (upd cs i fv) i) by (rewrite upd_length; lia). rewrite N1. cbn [bind].
    assert (V1 : forall j, (j < S i)%nat -> val (upd cs i fv) j = f (map xn (pairs j))).
    { intros j Hj. unfold val. rewrite nth_upd by lia. destruct (Nat.eqb_spec i j) as [<-|]; auto. apply A3. lia. }
    assert (V2 : forall j, (j < i)%nat -> val (upd cs i fv) j = val cs j).
    { intros j Hj. unfold val. rewrite nth_upd by lia. destruct (Nat.eqb_spec i j); auto; lia. }
    set (adv := if (i <? N - 1)%nat then advance _ else _).
    assert (Hadv : exists q, adv = Ok q /\ ((S i < N)%nat -> advances (S i) (point_new d) = Ok q)).
    { unfold adv. destruct (Nat.ltb_spec i (N - 1)).
      + destruct (advances_spec d (S i) Hd) as (q & Eq & _). pose proof Eq as Eq2. cbn [advances] in Eq. rewrite Ep in Eq.
        cbn [bind] in Eq. exists q. split; auto.
      + eexists. split; [reflexivity|]. intros; lia. }
    destruct Hadv as (q & Ea & Hq).
    destruct (Nat.eqb_spec i 0) as [->|Hi0].
    + cbn [bind]. rewrite Ea. cbn [bind]. eexists. split; [reflexivity|]. cbn [fst snd].
      split; [now rewrite upd_length|]. split; auto. split; auto. intros _. exists fv. split; auto.
      split; [intros j Hj; assert (j = 0)%nat by lia; subst j; unfold val; rewrite N1; lra|].
      exists 0%nat. split; auto.
    + destruct A4 as (mx & Em & M1 & j0 & Hj0 & M2); [lia|]. rewrite Em.
      destruct (Rlt_dec mx fv) as [Hlt|Hge]; cbn [bind]; rewrite Ea; cbn [bind]; (eexists; split; [reflexivity|]); cbn [fst snd].
      * split; [now rewrite upd_length|]. split; auto. split; auto. intros _. exists fv. split; auto. split.
        -- intros j Hj. destruct (Nat.eq_dec j i) as [->|Hn]; [unfold val; rewrite N1; lra|].
           rewrite V2 by lia. specialize (M1 j ltac:(lia)). lra.
        -- exists i. split; auto.
      * split; [now rewrite upd_length|]. split; auto. split; auto. intros _. exists mx. split; auto. split.
        -- intros j Hj. destruct (Nat.eq_dec j i) as [->|Hn]; [unfold val; rewrite N1; lra|].
           rewrite V2 by lia. apply M1. lia.
        -- exists j0. split; [lia|]. rewrite V2 by lia. auto.
  - rewrite E. cbn [bind fst snd] in *. destruct H4 as (mx & -> & M1 & M2); [pose proof N_pos; lia|].
    eexists. exists mx. split; [reflexivity|]. simpl in *. split; [auto|]. split; [exact H1|]. split; [auto|]. split; [|exact M2]. intros i Hi. split; [now apply H3|now apply M1].
Qed.

Lemma grid_spec f : exists g m css, grid_of f d b = Ok g /\ sg_d g = d /\ size g = N /\ sg_bound g = Some m /\
  length css = S d /\ sg_coefficients g = nth d css [] /\
  (forall t, (t < d)%nat -> forall ls ps, gp ls ps -> solves t (nth t css []) (nth (S t) css []) ls ps) /\
  (forall i, (i < N)%nat -> val (nth 0 css []) i = f (map xn (pairs i)) /\ val (nth 0 css []) i <= m) /\
  (exists i, (i < N)%nat /\ val (nth 0 css []) i = m).
Proof.
  unfold grid_of. destruct (storage_spec f (grid_new d b)) as (g0 & m & E & D0 & S0 & B0 & V0 & M0).
  - reflexivity.
  - unfold size, grid_new. simpl. rewrite repeat_length. now rewrite (tb_max _ _ _ _ _ TB).
  - rewrite E. cbn [bind]. unfold hierarchize. rewrite D0.
    destruct (hier_all_spec d 0 (sg_coefficients g0)) as (css & L & H0 & HL & EF & HS); auto.
    rewrite EF. cbn [bind]. eexists. exists m, css. split; [reflexivity|]. simpl.
    assert (Hlast : last css [] = nth d css []).
    { clear - L. revert L. generalize d. induction css as [|c css IH]; intros n L; [discriminate|].
      destruct css as [|c1 css]; simpl in L; [destruct n; [reflexivity|lia]|].
      destruct n as [|n]; [lia|]. exact (IH n ltac:(simpl; lia)). }
    assert (Hin : In (last css []) css).
    { clear - L. destruct css; [discriminate|]. rewrite (app_removelast_last (l := l :: css) []) at 2 by congruence. apply in_or_app. right. now left. }
    assert (Hhd : nth 0 css [] = sg_coefficients g0) by (destruct css; simpl in *; auto).
    rewrite Hhd. split; auto. split; [unfold size; simpl; now apply HL|]. split; [auto|]. split; [auto|]. split; [auto|]. split; [exact HS|]. split; [exact V0|exact M0].
Qed.

Lemma C15_safe : forall cs, length cs = N -> exists cs', foldM (hier_pass b d) (seq 0 d) cs = Ok cs' /\ length cs' = N.
Proof.
  intros cs Hl. destruct (hier_all_spec d 0 cs) as (css & L & H0 & HL & EF & HS); auto.
  exists (last css []). split; auto. apply HL. destruct css; [discriminate|].
  rewrite (app_removelast_last (l := l :: css) []) at 2 by congruence. apply in_or_app. right. now left.
Qed.

Lemma gpc_domain c : gpc c -> List.Forall D (map xn c).
Proof.
  intros G. rewrite Forall_forall. intros y Hy. apply in_map_iff in Hy. destruct Hy as (s & <- & Hs).
  destruct (gpc_k c G s Hs) as [Hk Hg]. now apply (tb_domain _ _ _ _ _ TB).
Qed.

Lemma C16_pos : nodal k xk phi -> forall f, exists g, grid_of f d b = Ok g /\
  (forall c, gpc c -> interpolate g (map xn c) b = Ok (f (map xn c))) /\
  (forall xs, length xs = d -> List.Forall D xs -> exists y c, interpolate g xs b = Ok y /\ gpc c /\ y <= f (map xn c)).
Proof.
  intros NB f. destruct (grid_spec f) as (g & m & css & E & D0 & S0 & B0 & L & Ec & HS & V0 & M0).
  exists g. split; auto. split.
  - intros c G. unfold interpolate.
    destruct (interp_spec g (map xn c) D0 S0) as (p & EI). { rewrite map_length. now apply gpc_len. } { now apply gpc_domain. }
    rewrite EI. cbn [bind fst]. rewrite B0. f_equal. rewrite (interp_En NB) by auto.
    rewrite Ec. rewrite <- (hier_En NB css L HS c G d (le_n d)).
    unfold V. destruct (V0 (ix (map fst c) (map snd c))) as [V1 V2]; [now apply gp_ix|].
    rewrite pairs_ix in V1 by auto. rewrite <- V1. apply Rmin_left. exact V2.
  - intros xs Hx HD. unfold interpolate. destruct (interp_spec g xs D0 S0 Hx HD) as (p & EI). rewrite EI. cbn [bind fst].
    rewrite B0. destruct M0 as (i & Hi & Mi). destruct (V0 i Hi) as [V1 _].
    eexists. exists (pairs i). split; [reflexivity|]. split; [now apply pairs_spec|].
    rewrite <- V1, Mi. apply Rmin_r.
Qed.
End G.

Lemma place_xn xk c : place xk (map fst c) (map snd c) = map (xn xk) c.
Proof. unfold place. now rewrite combine_map. Qed.

Lemma C15_safe_main b k D xk phi d g : total_basis b k D xk phi -> sg_d g = d -> size g = findNumGridPoints d k ->
  exists g', hierarchize b g = Ok g' /\ size g' = size g.
Proof.
  intros TB Hd Hs. unfold hierarchize. rewrite Hd. destruct (Nat.eq_dec d 0) as [->|Hn].
  - simpl. eexists. split; reflexivity.
  - destruct (C15_safe b k D xk phi TB d ltac:(lia) (sg_coefficients g) Hs) as (cs & E & L).
    rewrite E. cbn [bind]. eexists. split; [reflexivity|]. unfold size in *. simpl. congruence.
Qed.

Lemma C16_main b k D xk phi d f : total_basis b k D xk phi -> nodal k xk phi ->
  exists g, grid_of f d b = Ok g /\
  (forall ls ps, grid_point d k ls ps -> interpolate g (place xk ls ps) b = Ok (f (place xk ls ps))) /\
  (forall y, length y = d -> List.Forall D y -> exists v ls ps, interpolate g y b = Ok v /\ grid_point d k ls ps /\ v <= f (place xk ls ps)).
Proof.
  intros TB NB. destruct (Nat.eq_dec d 0) as [->|Hn].
  - assert (G0 : grid_point 0 k [] []) by (repeat split; simpl; auto; lia).
    eexists. split; [reflexivity|]. unfold interpolate. simpl.
    assert (E : Rmin (0 + f [] * 1) (f []) = f []) by (rewrite Rmin_left; lra).
    split.
    + intros ls ps (L & L' & _). destruct ls, ps; try discriminate. unfold place. simpl. now rewrite E.
    + intros [|] L _; [|discriminate]. eexists. exists [], []. split; [reflexivity|]. split; auto.
      rewrite E. unfold place. simpl. lra.
  - destruct (C16_pos b k D xk phi TB d ltac:(lia) NB f) as (g & E & H1 & H2).
    assert (Hc : forall ls ps, grid_point d k ls ps -> map fst (combine ls ps) = ls /\ map snd (combine ls ps) = ps).
    { intros ls ps (L & L' & _). eapply map_combine; eauto; try congruence. }
    exists g. split; auto. split.
    + intros ls ps G. apply (H1 (combine ls ps)). destruct (Hc ls ps G) as [C1 C2].
      unfold gpc. now rewrite C1, C2.
    + intros y Hy HD. destruct (H2 y Hy HD) as (v & c & Ev & G & Hle).
      exists v, (map fst c), (map snd c). split; auto. split; auto. now rewrite place_xn.
Qed.

Lemma pow2_INR n : 2 ^ n = INR (2 ^ n).
Proof. induction n; simpl; auto. rewrite IHn. rewrite plus_INR, Nat.add_0_r. lra. Qed.

Lemma hat_nodal k : total_basis (hat_basis k) k (fun _ => True) hat_x hat_phi /\ nodal k hat_x hat_phi.
Proof.
  split.
  - assert (E : forall l, (l <= k)%nat -> nth_error (b_levels (hat_basis k)) l =
       Some (mkLevel (fun j => Ok (hat_x l j)) (fun y j => Ok (hat_phi l j y)) (fun _ _ => Ok 0) (fun _ _ => Ok 0))).
    { intros l Hl. simpl. rewrite (map_nth_error _ l (seq 0 (k + 1)) (d := l)); auto.
      rewrite (nth_error_nth' _ 0%nat) by (rewrite seq_length; lia). now rewrite seq_nth by lia. }
    constructor; [reflexivity| |auto|]; intros.
    + unfold b_getKnot. rewrite (vec_get_Ok _ _ _ (E l H)). reflexivity.
    + unfold b_evaluate. rewrite (vec_get_Ok _ _ _ (E l H)). reflexivity.
  - intros l j l' j' Hl Hj Hl' Hj'. unfold hat_phi. destruct l as [|l].
    + assert (l' = 0)%nat by lia. subst. simpl in *. assert (j = 0)%nat by lia. assert (j' = 0)%nat by lia. now subst.
    + set (m := S l) in *. unfold hat_x.
      assert (P : forall n, 0 < 2 ^ n) by (intros; apply pow_lt; lra).
      assert (Hm : 2 ^ (m + 1) = 2 ^ (l' + 1) * 2 ^ (m - l')).
      { rewrite <- pow_add. f_equal. lia. }
      replace (Rabs ((2 * INR j' + 1) / 2 ^ (l' + 1) - (2 * INR j + 1) / 2 ^ (m + 1)) * 2 ^ (m + 1))
        with (Rabs ((2 * INR j' + 1) * 2 ^ (m - l') - (2 * INR j + 1))).
      2:{ rewrite <- (Rabs_pos_eq (2 ^ (m + 1))) at 2 by (left; apply P). rewrite <- Rabs_mult. f_equal.
          rewrite Hm. pose proof (P (l' + 1)%nat). pose proof (P (m - l')%nat). field. split; lra. }
      replace ((2 * INR j' + 1) * 2 ^ (m - l') - (2 * INR j + 1))
        with (IZR ((2 * Z.of_nat j' + 1) * Z.of_nat (2 ^ (m - l')) - (2 * Z.of_nat j + 1))).
      2:{ rewrite minus_IZR, mult_IZR, !plus_IZR, !mult_IZR, <- !INR_IZR_INZ, pow2_INR. reflexivity. }
      rewrite <- abs_IZR.
      destruct (Nat.eqb_spec l' m) as [->|Hne]; [destruct (Nat.eqb_spec j' j) as [->|Hj2]|]; cbn [andb].
      * rewrite Nat.sub_diag. change (2 ^ 0)%nat with 1%nat. replace (Z.abs _) with 0%Z by lia.
        rewrite Rmax_right; lra.
      * rewrite Nat.sub_diag. change (2 ^ 0)%nat with 1%nat. rewrite Rmax_left; auto.
        apply Rle_minus. apply IZR_le. lia.
      * rewrite Rmax_left; auto. apply Rle_minus. apply IZR_le.
        replace (m - l')%nat with (S (m - l' - 1)) by lia. rewrite Nat.pow_succ_r'.
        assert (Hodd : ((2 * Z.of_nat j' + 1) * Z.of_nat (2 * 2 ^ (m - l' - 1)) - (2 * Z.of_nat j + 1) <> 0)%Z).
        { rewrite Nat2Z.inj_mul. intros Q.
          assert (Q2 : (2 * ((2 * Z.of_nat j' + 1) * Z.of_nat (2 ^ (m - l' - 1))) = 2 * Z.of_nat j + 1)%Z) by lia.
          lia. }
        lia.
Qed.
