From Coq Require Import List ZArith Bool Arith Lia Permutation Reals Lra.
From Verif Require Import Model.Base Model.Family Model.GLMM Model.SplitFrame Spec.Numbers Spec.FamilySpec Spec.GLMMSpec Spec.SplitSpec
  Proofs.ListLemmas Proofs.GLMMLemmas Proofs.GLMMMain Proofs.SplitLemmas.
Import ListNotations.
Local Open Scope R_scope.

(** * Sums over lists *)
Definition lsum {A} (l : list A) (f : A -> R) : R := fold_right Rplus 0 (map f l).
Lemma lsum_seq n f : sumR n f = lsum (seq 0 n) f. Proof. reflexivity. Qed.
Lemma lsum_ext {A} (l : list A) f g : (forall x, In x l -> f x = g x) -> lsum l f = lsum l g.
Proof. intros H. unfold lsum. f_equal. now apply map_ext_in. Qed.
Lemma lsum_app {A} (l m : list A) f : lsum (l ++ m) f = lsum l f + lsum m f.
Proof. unfold lsum. rewrite map_app. induction (map f l); simpl; lra. Qed.
Lemma lsum_perm {A} (l m : list A) f : Permutation l m -> lsum l f = lsum m f.
Proof. unfold lsum. induction 1; simpl; lra. Qed.
Lemma lsum_map {A B} (g : A -> B) l f : lsum (map g l) f = lsum l (fun x => f (g x)).
Proof. unfold lsum. now rewrite map_map. Qed.
Lemma lsum_concat {A} (ls : list (list A)) f : lsum (concat ls) f = lsum ls (fun l => lsum l f).
Proof. induction ls as [|l ls IH]; [reflexivity|]. cbn [concat]. rewrite lsum_app, IH. reflexivity. Qed.
Lemma lsum_null {A} (l : list A) f : (forall x, In x l -> f x = 0) -> lsum l f = 0.
Proof. unfold lsum. induction l as [|x l IH]; simpl; intros H; [easy|]. rewrite (H x), IH by auto. lra. Qed.
Lemma lsum_sub {A} (eqd : forall x y : A, {x = y} + {x <> y}) (l m : list A) f :
  NoDup l -> NoDup m -> incl l m -> (forall x, In x m -> ~ In x l -> f x = 0) -> lsum l f = lsum m f.
Proof.
  intros Dl Dm I Z. set (p := fun x => if in_dec eqd x l then true else false).
  rewrite <- (lsum_perm _ _ f (filter_partition p m)), lsum_app.
  rewrite (lsum_null (filter (fun v => negb (p v)) m)).
  - rewrite Rplus_0_r. apply lsum_perm. apply NoDup_Permutation; [easy|now apply NoDup_filter|].
    intros x. rewrite filter_In. unfold p. destruct (in_dec eqd x l) as [Q|Q]; split; [intros _; split; [now apply I|easy]|easy|easy|intros [_ X]; discriminate].
  - intros x Hx. apply filter_In in Hx. destruct Hx as [H1 H2]. apply Z; [easy|]. unfold p in H2. now destruct (in_dec eqd x l).
Qed.
Lemma lsum_nth {A} (d : A) l f : sumR (length l) (fun i => f (nth i l d)) = lsum l f.
Proof.
  induction l as [|x l IH]; [reflexivity|]. cbn [length]. rewrite sumR_S. cbn [nth]. rewrite IH. reflexivity.
Qed.

Lemma loglik_lsum (g : nat -> R) : forall m (a b : list R), length a = m -> length b = m -> forall s,
  loglik (map g (seq s m)) a b =
  sumR m (fun k => binomial1 Rnum (g (s + k)%nat) (nth k a 0) (nth k b 0)).
Proof.
  induction m as [|m IH]; intros [|a0 a] [|b0 b] Ha Hb s; simpl in Ha, Hb; try discriminate; [reflexivity|].
  rewrite sumR_S. cbn [seq map loglik nth]. rewrite (IH a b) by lia.
  rewrite Nat.add_0_r. apply (f_equal2 Rplus); [reflexivity|].
  apply sumR_ext. intros k Hk. replace (S s + k)%nat with (s + S k)%nat by lia. reflexivity.
Qed.

(** * Active sets *)
Lemma product_rows_In {A} (Lam : csc A) (col : list (nat * A)) r :
  In r (product_rows Lam col) <-> (r < cs_rows Lam)%nat /\ exists k x, In (k, x) col /\ stored Lam r k.
Proof.
  unfold product_rows. rewrite filter_In, in_seq, existsb_exists. split.
  - intros [H ([k x] & Hx & E)]. split; [lia|]. exists k, x. split; [easy|]. cbn in E. apply existsb_exists in E.
    destruct E as ([i y] & Hy & E). apply Nat.eqb_eq in E. cbn in E. subst. now exists y.
  - intros [H (k & x & Hx & y & Hy)]. split; [lia|]. exists (k, x). split; [easy|]. cbn. apply existsb_exists. exists (r, y).
    split; [easy|apply Nat.eqb_refl].
Qed.
Lemma rows_depends {A} (Lam Z : csc A) o r : In r (product_rows Lam (nth o (cs_cols Z) [])) <-> (r < cs_rows Lam)%nat /\ depends Lam Z o r.
Proof.
  rewrite product_rows_In. unfold depends. split.
  - intros [H (k & x & Hx & S)]. split; [easy|]. exists k. split; [now exists x|easy].
  - intros [H (k & (x & Hx) & S)]. split; [easy|]. now exists k, x.
Qed.

(** * Sparse matrices with indices *)
Definition LamM (M : list (list (nat * Z))) (theta : list R) (r j : nat) : R :=
  lsum (filter (fun e => Nat.eqb (fst e) r) (nth j M [])) (fun e => nth (Z.to_nat (snd e - 1)) theta 0).

Lemma combine_map_l {A B C} (f : A -> C) (l : list A) (m : list B) : combine (map f l) m = map (fun ab => (f (fst ab), snd ab)) (combine l m).
Proof. revert m. induction l as [|x l IH]; intros [|y m]; simpl; try easy. now rewrite IH. Qed.
Lemma combine_map_r {A B C} (f : B -> C) (l : list A) (m : list B) : combine l (map f m) = map (fun ab => (fst ab, f (snd ab))) (combine l m).
Proof. revert m. induction l as [|x l IH]; intros [|y m]; simpl; try easy. now rewrite IH. Qed.
Lemma combine_app' {A B} (l l' : list A) (m m' : list B) : length l = length m -> combine (l ++ l') (m ++ m') = combine l m ++ combine l' m'.
Proof. revert m. induction l as [|x l IH]; intros [|y m] H; try discriminate; [easy|]. cbn. rewrite IH; [easy|]. cbn in H. lia. Qed.
Lemma combine_fst_snd {A B} (l : list (A * B)) : combine (map fst l) (map snd l) = l.
Proof. induction l as [|[x y] l IH]; cbn; [easy|]. now rewrite IH. Qed.

Lemma Lam_gen (cols : list (list (nat * R))) (M : list (list (nat * Z))) theta r j : map (map fst) cols = map (map fst) M ->
  forall k,
  lsum (filter (fun pi : nat * nat * Z => andb (Nat.eqb (fst (fst pi)) r) (Nat.eqb (snd (fst pi)) j))
    (combine (concat (map (fun jc : nat * list (nat * R) => map (fun e => (fst e, fst jc)) (snd jc)) (combine (seq k (length cols)) cols)))
             (map (fun l => (l - 1)%Z) (concat (map (map snd) M)))))
    (fun pi => nth (Z.to_nat (snd pi)) theta 0) =
  if (k <=? j)%nat then LamM M theta r (j - k) else 0.
Proof.
  revert M. induction cols as [|c cols IH]; intros [|m M] H k; try discriminate.
  - cbn. destruct (k <=? j)%nat; [|reflexivity]. unfold LamM. now destruct (j - k)%nat.
  - cbn [map] in H. injection H as H1 H2. cbn [length seq combine map concat]. rewrite map_app.
    assert (L : length (map (fun e : nat * R => (fst e, k)) c) = length (map (fun l => (l - 1)%Z) (map snd m))).
    { rewrite !map_length. now rewrite <- (map_length fst c), H1, map_length. }
    cbn [fst snd]. rewrite combine_app' by exact L. rewrite filter_app, lsum_app, (IH M H2 (S k)). clear IH.
    replace (map (fun e : nat * R => (fst e, k)) c) with (map (fun i => (i, k)) (map fst c)) by now rewrite map_map.
    rewrite H1. rewrite combine_map_l, combine_map_r, combine_fst_snd, map_map. cbn [fst snd].
    assert (G : lsum (filter (fun pi : nat * nat * Z => ((fst (fst pi) =? r) && (snd (fst pi) =? j))%nat) (map (fun x : nat * Z => (fst x, k, (snd x - 1)%Z)) m))
      (fun pi => nth (Z.to_nat (snd pi)) theta 0) =
      if (k =? j)%nat then lsum (filter (fun e => Nat.eqb (fst e) r) m) (fun e => nth (Z.to_nat (snd e - 1)) theta 0) else 0).
    { clear. induction m as [|[i z] m IH]; cbn [map filter fst snd].
      - now destruct (k =? j)%nat.
      - destruct (k =? j)%nat.
        + rewrite andb_true_r. destruct (i =? r)%nat; [|exact IH]. unfold lsum in *. cbn [map fold_right snd]. now rewrite IH.
        + rewrite andb_false_r. exact IH. }
    rewrite G. destruct (Nat.eqb_spec k j) as [->|N].
    + destruct (Nat.leb_spec (S j) j), (Nat.leb_spec j j); try lia. rewrite Nat.sub_diag. unfold LamM. cbn [nth]. ring.
    + destruct (Nat.leb_spec (S k) j), (Nat.leb_spec k j); try lia; try ring.
      replace (j - k)%nat with (S (j - S k)) by lia. unfold LamM. cbn [nth]. ring.
Qed.

Lemma Lam_M (d : glmm_data Rnum) (M : list (list (nat * Z))) theta r j :
  map (map fst) (sp_cols _ (gd_Lambdat _ d)) = map (map fst) M ->
  gd_Lind _ d = map (fun l => (l - 1)%Z) (concat (map (map snd) M)) -> Lam d theta r j = LamM M theta r j.
Proof.
  intros H1 H2. unfold Lam, places. rewrite H2. pose proof (Lam_gen _ M theta r j H1 0) as G. cbn [Nat.leb] in G. rewrite Nat.sub_0_r in G. exact G.
Qed.

Lemma fill_x_fst {A B} (cols : list (list (nat * A))) : forall (x : list B), length x = length (concat cols) ->
  map (map fst) (fill_x cols x) = map (map fst) cols.
Proof.
  induction cols as [|c cols IH]; intros x H; cbn; [easy|]. cbn in H. rewrite app_length in H. f_equal.
  - assert (L : length (map fst c) = length (firstn (length c) x)) by (rewrite map_length, firstn_length; lia). revert L.
    generalize (firstn (length c) x) as y. generalize (map fst c) as l. intros l. induction l as [|i l IHl]; intros [|y0 y] Ly; try discriminate; [easy|].
    cbn. f_equal. apply IHl. cbn in Ly. lia.
  - apply IH. rewrite skipn_length. lia.
Qed.
Lemma fill_x_snd {A B} (cols : list (list (nat * A))) : forall (x : list B), length x = length (concat cols) ->
  concat (map (map snd) (fill_x cols x)) = x.
Proof.
  induction cols as [|c cols IH]; intros x H; cbn.
  - now destruct x.
  - cbn in H. rewrite app_length in H. rewrite IH by (rewrite skipn_length; lia).
    rewrite <- (firstn_skipn (length c) x) at 3. f_equal.
    assert (L : length (map fst c) = length (firstn (length c) x)) by (rewrite map_length, firstn_length; lia). revert L.
    generalize (firstn (length c) x) as y. generalize (map fst c) as l. intros l. induction l as [|i l IHl]; intros [|y0 y] Ly; try discriminate; [easy|].
    cbn. f_equal. apply IHl. cbn in Ly. lia.
Qed.

(** * Submatrices *)
Definition sub_col {A} (C : list nat) (col : list (nat * A)) : list (nat * A) :=
  map (fun e => (position (fst e + 1) C, snd e)) (filter (fun e => is_element (fst e + 1) C) col).
Lemma sub_col_fst {A B} C (a : list (nat * A)) (b : list (nat * B)) : map fst a = map fst b -> map fst (sub_col C a) = map fst (sub_col C b).
Proof.
  revert b. induction a as [|[i x] a IH]; intros [|[j y] b] H; try discriminate; [easy|]. cbn [map fst] in H. injection H as -> H.
  unfold sub_col. cbn [filter fst]. destruct (is_element (j + 1) C); cbn [map fst]; [f_equal|]; now apply IH.
Qed.
Lemma position_nth (C : list nat) i : NoDup C -> (i < length C)%nat -> position (nth i C 0%nat) C = i.
Proof.
  intros D. revert i. induction D as [|x C N D IH]; intros i Hi; [cbn in Hi; lia|].
  destruct i as [|i]; cbn [nth position]; [now rewrite Nat.eqb_refl|]. cbn in Hi.
  destruct (Nat.eqb_spec (nth i C 0%nat) x) as [E|_]; [exfalso; apply N; rewrite <- E; apply nth_In; lia|]. rewrite IH by lia. easy.
Qed.
Lemma position_In (C : list nat) x : In x C -> nth (position x C) C 0%nat = x.
Proof.
  induction C as [|y C IH]; cbn; [easy|]. intros H. destruct (Nat.eqb_spec x y) as [->|N]; [easy|]. apply IH. intuition congruence.
Qed.
Lemma sub_col_sum C (col : list (nat * Z)) i (f : Z -> R) : NoDup C -> (i < length C)%nat -> (forall c, In c C -> (1 <= c)%nat) ->
  lsum (filter (fun e => Nat.eqb (fst e) i) (sub_col C col)) (fun e => f (snd e)) =
  lsum (filter (fun e => Nat.eqb (fst e) (nth i C 0%nat - 1)) col) (fun e => f (snd e)).
Proof.
  intros D Hi P. assert (Hc := P _ (nth_In C 0%nat Hi)). induction col as [|[k z] col IH]; [reflexivity|].
  unfold sub_col in *. cbn [filter fst]. destruct (is_element (k + 1) C) eqn:E.
  - cbn [map filter fst]. apply is_element_In in E.
    destruct (Nat.eqb_spec (position (k + 1) C) i) as [Q|Q], (Nat.eqb_spec k (nth i C 0%nat - 1)) as [Q'|Q'].
    + unfold lsum in *. cbn [map fold_right snd]. now rewrite IH.
    + exfalso. apply Q'. rewrite <- Q, position_In by easy. lia.
    + exfalso. apply Q. replace (k + 1)%nat with (nth i C 0%nat) by lia. now apply position_nth.
    + exact IH.
  - apply is_element_not in E. destruct (Nat.eqb_spec k (nth i C 0%nat - 1)) as [Q'|Q']; [|exact IH].
    exfalso. apply E. replace (k + 1)%nat with (nth i C 0%nat) by lia. now apply nth_In.
Qed.

(** * The local term *)
Section Local.
Variables (fr : frame Rnum).
Hypothesis Reg : regular fr.
Let n := length (cs_cols (fr_Zt _ fr)).
Let q := cs_rows (fr_Zt _ fr).
Let M := fill_x (cs_cols (fr_Lambdat _ fr)) (fr_Lind _ fr).
Let y := response_vector _ (fr_response _ fr).
Let w := match fr_weights _ fr with Some w => w | None => repeat 1 n end.

Definition local (C os : list nat) : glmm_data Rnum :=
  mkData Rnum (map (fun i => (Z.of_nat i - 1)%Z) C) (map (fun o => nth (o - 1) (fr_X _ fr) []) os) (fr_numFixed _ fr)
    (map (fun i => map (fun o => entry (fr_Zt _ fr) (i - 1) (o - 1)) os) C) (length os)
    (mkSparse Rnum (length C) (map (fun c => sub_col C (nth (c - 1) (cs_cols (fr_Lambdat _ fr)) [])) C))
    (map (fun l => (l - 1)%Z) (concat (map (map snd) (map (fun c => sub_col C (nth (c - 1) M [])) C))))
    (map (fun o => nth (o - 1) y 0) os) (map (fun o => nth (o - 1) w 0) os).

Lemma at_obs_ok {A} (x : list A) d os : (forall o, In o os -> (1 <= o <= length x)%nat) -> at_obs x os = Ok (map (fun o => nth (o - 1) x d) os).
Proof.
  intros H. unfold at_obs. apply mapM_all. intros o Ho. specialize (H o Ho). unfold vec_at.
  rewrite (nth_error_nth' x d) by lia. reflexivity.
Qed.
Lemma fill_x_length {A B} (cols : list (list (nat * A))) : forall (x : list B), length (fill_x cols x) = length cols.
Proof. induction cols; intros x; cbn; [easy|]. now rewrite IHcols. Qed.
Lemma M_fst : map (map fst) M = map (map fst) (cs_cols (fr_Lambdat _ fr)).
Proof. apply fill_x_fst, (re_Lind _ Reg). Qed.
Lemma M_snd : concat (map (map snd) M) = fr_Lind _ fr.
Proof. apply fill_x_snd, (re_Lind _ Reg). Qed.
Lemma whole_Lam theta r j : Lam (whole fr) theta r j = LamM M theta r j.
Proof. apply Lam_M; cbn [whole gd_Lambdat gd_Lind sp_cols]; [now rewrite M_fst|now rewrite M_snd]. Qed.
Lemma w_length : length w = n.
Proof. unfold w. destruct (fr_weights _ fr) eqn:E; [now apply (re_w _ Reg)|apply repeat_length]. Qed.
Lemma slot_length {A} (m : csc A) : length (slot_x m) = length (concat (cs_cols m)).
Proof. unfold slot_x. induction (cs_cols m) as [|c l IH]; cbn; [easy|]. rewrite !app_length, map_length. lia. Qed.

Variables (C os : list nat).
Hypothesis HC : forall c, In c C -> (1 <= c <= q)%nat.
Hypothesis Ho : forall o, In o os -> (1 <= o <= n)%nat.

Lemma sub_csc_ok {A} (m : csc A) : cs_rows m = q -> length (cs_cols m) = q ->
  sub_csc m C = Ok (mkCsc (length C) (map (fun c => sub_col C (nth (c - 1) (cs_cols m) [])) C)).
Proof.
  intros H1 H2. unfold sub_csc. rewrite (mapM_all _ (fun c => nth (c - 1) (cs_cols m) [])).
  - cbn [bind]. now rewrite map_map.
  - intros c Hc. specialize (HC c Hc). destruct (Nat.ltb_spec (c - 1) (cs_rows m)); [|lia].
    unfold vec_at. rewrite (nth_error_nth' _ []) by lia. reflexivity.
Qed.

Lemma local_ok : find_local_term Rnum (C, os) fr = Ok (local C os).
Proof.
  unfold find_local_term.
  rewrite (at_obs_ok (fr_X _ fr) []) by (rewrite (re_X _ Reg); exact Ho). cbn [bind].
  rewrite (mapM_all _ (fun i => map (fun o => entry (fr_Zt _ fr) (i - 1) (o - 1)) os)).
  2: { intros i Hi. apply mapM_all. intros o H. unfold csc_at. specialize (HC i Hi). specialize (Ho o H).
       destruct (Nat.ltb_spec (i - 1) (cs_rows (fr_Zt _ fr))); [|unfold q in HC; lia]. unfold vec_at.
       rewrite (nth_error_nth' _ []) by (fold n; lia). cbn [bind]. now rewrite nsum_fold. }
  cbn [bind]. rewrite sub_csc_ok by apply Reg. cbn [bind].
  unfold set_x. rewrite slot_length, (re_Lind _ Reg), Nat.eqb_refl. cbn [bind].
  rewrite sub_csc_ok by (cbn [cs_rows cs_cols]; rewrite ?fill_x_length; apply Reg). cbn [bind cs_cols cs_rows].
  rewrite (at_obs_ok (response_vector _ (fr_response _ fr)) 0) by (rewrite (re_y _ Reg); exact Ho).
  replace (match fr_weights _ fr with Some w0 => at_obs w0 os | None => Ok (repeat (nZ Rnum 1) (length os)) end)
    with (Ok (map (fun o => nth (o - 1) w 0) os)).
  - cbn [bind]. reflexivity.
  - unfold w. destruct (fr_weights _ fr) as [w0|] eqn:E.
    + symmetry. apply at_obs_ok. rewrite (re_w _ Reg _ E). exact Ho.
    + f_equal. cbn [nZ Rnum]. clear -Ho. induction os as [|o l IH]; [reflexivity|]. cbn [map length repeat]. f_equal.
      * specialize (Ho o (or_introl eq_refl)). destruct (Nat.lt_ge_cases (o - 1) n) as [H|H]; [|lia].
        rewrite (nth_indep _ 0 1) by now rewrite repeat_length. apply nth_repeat.
      * apply IH. intros o' H. apply Ho. now right.
Qed.

Hypothesis DC : NoDup C.

Lemma local_Lam theta i j : (i < length C)%nat -> (j < length C)%nat ->
  Lam (local C os) theta i j = Lam (whole fr) theta (nth i C 0%nat - 1) (nth j C 0%nat - 1).
Proof.
  intros Hi Hj.
  rewrite whole_Lam.
  rewrite (Lam_M (local C os) (map (fun c => sub_col C (nth (c - 1) M [])) C)).
  - unfold LamM. rewrite (nth_map' _ C j [] 0%nat) by exact Hj.
    rewrite (sub_col_sum C (nth (nth j C 0%nat - 1) M []) i (fun z => nth (Z.to_nat (z - 1)) theta 0)); [reflexivity|easy|easy|].
    intros c Hc. now apply HC.
  - cbn [local gd_Lambdat sp_cols]. rewrite !map_map. apply map_ext. intros c. apply sub_col_fst.
    pose proof M_fst as E. apply (f_equal (fun l => nth (c - 1) l [])) in E.
    change (@nil nat) with (map (@fst nat Z) []) in E at 1. rewrite map_nth in E.
    change (@nil nat) with (map (@fst nat R) []) in E. rewrite map_nth in E. now rewrite E.
  - reflexivity.
Qed.

(** [C] holds every random effect of the observations [os]. *)
Hypothesis Cover : forall o r, In o os -> depends (fr_Lambdat _ fr) (fr_Zt _ fr) (o - 1) r -> In (r + 1)%nat C.

Lemma entry_stored (m : csc R) r c : ~ stored m r c -> entry m r c = 0.
Proof.
  intros H. unfold entry. rewrite filter_none; [reflexivity|]. intros [i x] Hx. apply Nat.eqb_neq. intros E. cbn in E. subst. apply H. now exists x.
Qed.
Lemma Lam_stored theta r j : ~ stored (fr_Lambdat _ fr) r j -> Lam (whole fr) theta r j = 0.
Proof.
  intros H. rewrite whole_Lam.
  unfold LamM. rewrite filter_none; [reflexivity|]. intros [i x] Hx. apply Nat.eqb_neq. intros E. cbn in E. subst i. apply H.
  assert (In r (map fst (nth j M []))) as I by (apply in_map_iff; now exists (r, x)).
  assert (In r (map fst (nth j (cs_cols (fr_Lambdat _ fr)) []))) as I'.
  { pose proof M_fst as E. apply (f_equal (fun l => nth j l [])) in E.
    change (@nil nat) with (map (@fst nat Z) []) in E at 1. rewrite map_nth in E.
    change (@nil nat) with (map (@fst nat R) []) in E. rewrite map_nth in E. exact (eq_ind _ (fun l => In r l) I _ E). }
  apply in_map_iff in I'. destruct I' as ([r' x'] & E & I'). cbn in E. rewrite E in I'. now exists x'.
Qed.

Definition C0 := map (fun c => (c - 1)%nat) C.
Lemma C0_NoDup : NoDup C0.
Proof.
  unfold C0. clear Cover. revert HC DC. induction C as [|c l IH]; cbn; intros H D; [constructor|]. inversion D; subst. constructor.
  - rewrite in_map_iff. intros (c' & E & I). assert (c' = c) by (pose proof (H c' (or_intror I)); pose proof (H c (or_introl eq_refl)); lia). now subst.
  - apply IH; [|easy]. intros c' Hc'. apply H. now right.
Qed.
Lemma C0_In r : In r C0 <-> In (r + 1)%nat C.
Proof.
  unfold C0. rewrite in_map_iff. split.
  - intros (c & E & I). specialize (HC c I). now replace (r + 1)%nat with c by lia.
  - intros I. exists (r + 1)%nat. split; [lia|easy].
Qed.
Lemma C0_incl : incl C0 (seq 0 q).
Proof. intros r Hr. apply C0_In in Hr. specialize (HC _ Hr). apply in_seq. lia. Qed.

Lemma sum_C (f : nat -> R) : (forall r, (r < q)%nat -> ~ In r C0 -> f r = 0) -> lsum C (fun c => f (c - 1)%nat) = sumR q f.
Proof.
  intros H. rewrite lsum_seq, <- (lsum_map (fun c => (c - 1)%nat) C f). apply (lsum_sub Nat.eq_dec).
  - exact C0_NoDup.
  - apply seq_NoDup.
  - exact C0_incl.
  - intros r Hr. apply in_seq in Hr. apply H. lia.
Qed.

Lemma stored_C k o : In o os -> stored (fr_Zt _ fr) k (o - 1) -> In k C0.
Proof.
  intros H S. apply C0_In, (Cover o k H). exists k. split; [easy|]. apply (re_diag _ Reg), (re_Zt _ Reg _ _ S).
Qed.

Lemma local_eta beta theta u k : (k < length os)%nat ->
  eta (local C os) beta theta (restrict u (gd_items _ (local C os))) k =
  eta (whole fr) beta theta (restrict u (gd_items _ (whole fr))) (nth k os 0%nat - 1).
Proof.
  intros Hk. set (o := nth k os 0%nat). assert (Io : In o os) by now apply nth_In.
  assert (Bo := Ho o Io). unfold eta. f_equal.
  - apply sumR_ext. intros j _. unfold at2. cbn [local whole gd_X]. now rewrite (nth_map' _ os k [] 0%nat) by exact Hk.
  - unfold restrict. cbn [local whole gd_items]. rewrite !map_length, seq_length. fold q.
    rewrite (sumR_ext q _ (fun r => LZ (whole fr) theta r (o - 1) * nth r u 0)).
    2: { intros r Hr. rewrite map_map. rewrite (nth_map_seq _ q r 0) by exact Hr. now rewrite Nat2Z.id. }
    rewrite <- (sum_C (fun r => LZ (whole fr) theta r (o - 1) * nth r u 0)).
    + rewrite <- (lsum_nth 0%nat). apply sumR_ext. intros i Hi. rewrite map_map, (nth_map' _ C i 0 0%nat) by exact Hi.
      pose proof (HC _ (nth_In C 0%nat Hi)) as Bi.
      replace (Z.to_nat (Z.of_nat (nth i C 0%nat) - 1)) with (nth i C 0%nat - 1)%nat by lia. f_equal.
      unfold LZ. cbn [local whole gd_Zt]. rewrite !map_length, seq_length. fold q.
      rewrite <- (sum_C (fun j => Lam (whole fr) theta (nth i C 0%nat - 1) j * at2 (map (fun r => map (entry (fr_Zt _ fr) r) (seq 0 (length (cs_cols (fr_Zt _ fr))))) (seq 0 q)) j (o - 1))).
      * rewrite <- (lsum_nth 0%nat). apply sumR_ext. intros j Hj. pose proof (HC _ (nth_In C 0%nat Hj)) as Bj.
        rewrite local_Lam by assumption. f_equal. unfold at2. rewrite (nth_map' _ C j [] 0%nat) by exact Hj.
        rewrite (nth_map' _ os k 0 0%nat) by exact Hk. fold o.
        rewrite (nth_map_seq _ q _ []) by lia. rewrite (nth_map_seq _ n _ 0) by lia. reflexivity.
      * intros r Hr N. unfold at2. rewrite (nth_map_seq _ q _ []) by lia. rewrite (nth_map_seq _ n _ 0) by lia.
        rewrite entry_stored; [ring|]. intros S. apply N. now apply (stored_C r o).
    + intros r Hr N. replace (LZ (whole fr) theta r (o - 1)) with 0; [ring|]. symmetry. unfold LZ. cbn [whole gd_Zt]. rewrite map_length, seq_length. fold q.
      rewrite lsum_seq. apply lsum_null. intros j Hj. apply in_seq in Hj. unfold at2. rewrite (nth_map_seq _ q _ []) by lia. rewrite (nth_map_seq _ n _ 0) by lia.
      destruct (in_dec Nat.eq_dec j (map fst (nth (o - 1) (cs_cols (fr_Zt _ fr)) []))) as [I|I].
      * rewrite Lam_stored; [ring|]. intros S. apply N, C0_In, (Cover o r Io). exists j. split; [|exact S].
        apply in_map_iff in I. destruct I as ([j' x] & E & I). cbn in E. subst. now exists x.
      * rewrite entry_stored; [ring|]. intros (x & S). apply I, in_map_iff. now exists (j, x).
Qed.
End Local.

(** * Shapes *)
Lemma places_length (s : sparse Rnum) : length (places s) = length (concat (sp_cols _ s)).
Proof.
  unfold places. assert (G : forall k, length (concat (map (fun jc : nat * list (nat * R) => map (fun e => (fst e, fst jc)) (snd jc)) (combine (seq k (length (sp_cols _ s))) (sp_cols _ s)))) = length (concat (sp_cols _ s))).
  { induction (sp_cols _ s) as [|c l IH]; intros k; cbn [length seq combine map concat]; [reflexivity|]. rewrite !app_length, map_length. cbn [snd]. now rewrite IH. }
  apply G.
Qed.
Lemma concat_lengths {A B} (l : list (list A)) (m : list (list B)) : map (@length A) l = map (@length B) m -> length (concat l) = length (concat m).
Proof.
  revert m. induction l as [|a l IH]; intros [|b m] H; try discriminate; [easy|]. cbn in H. injection H as H1 H2. cbn. rewrite !app_length, H1. now rewrite (IH m).
Qed.

Section Shape.
Variables (fr : frame Rnum).
Hypothesis Reg : regular fr.
Let n := length (cs_cols (fr_Zt _ fr)).
Let q := cs_rows (fr_Zt _ fr).

Lemma local_shaped C os : (forall o, In o os -> (1 <= o <= n)%nat) -> shaped (local fr C os).
Proof.
  intros Ho. constructor; cbn [local gd_X gd_numObs gd_numFixed gd_Zt gd_Lambdat gd_Lind gd_items gd_response gd_weights sp_cols sp_rows].
  - now rewrite map_length.
  - intros row H. apply in_map_iff in H. destruct H as (o & <- & I). apply (re_Xrow _ Reg). apply nth_In. rewrite (re_X _ Reg). specialize (Ho o I). unfold n in Ho. lia.
  - now rewrite !map_length.
  - intros row H. apply in_map_iff in H. destruct H as (c & <- & _). now rewrite map_length.
  - now rewrite map_length.
  - rewrite map_length, places_length. cbn [sp_cols]. apply concat_lengths. rewrite !map_map. apply map_ext. intros c. rewrite map_length.
    rewrite <- (map_length fst (sub_col _ _)). rewrite <- (map_length fst (sub_col C (nth (c - 1) (cs_cols (fr_Lambdat _ fr)) []))). f_equal. apply sub_col_fst.
    pose proof (M_fst fr Reg) as E. apply (f_equal (fun l => nth (c - 1) l [])) in E.
    change (@nil nat) with (map (@fst nat Z) []) in E at 1. rewrite map_nth in E.
    change (@nil nat) with (map (@fst nat R) []) in E. rewrite map_nth in E. exact E.
  - now rewrite map_length.
  - now rewrite map_length.
Qed.

Lemma local_Lind C os m : (forall l, In l (fr_Lind _ fr) -> (1 <= l <= Z.of_nat m)%Z) -> in_range m (gd_Lind _ (local fr C os)).
Proof.
  intros H i Hi. cbn [local gd_Lind] in Hi. apply in_map_iff in Hi. destruct Hi as (l & <- & I).
  enough (In l (fr_Lind _ fr)) by (specialize (H l H0); lia).
  rewrite <- (M_snd fr Reg). apply in_concat in I. destruct I as (x & Hx & I). rewrite map_map in Hx. apply in_map_iff in Hx. destruct Hx as (c & <- & _).
  apply in_map_iff in I. destruct I as (e & <- & I). unfold sub_col in I. apply in_map_iff in I. destruct I as (e' & <- & I). cbn [snd]. apply filter_In in I. destruct I as [I _].
  set (M := fill_x (cs_cols (fr_Lambdat _ fr)) (fr_Lind _ fr)) in *. apply in_concat. exists (map snd (nth (c - 1) M [])). split.
  - apply in_map. apply nth_In. destruct (Nat.lt_ge_cases (c - 1) (length M)) as [L|L]; [easy|]. rewrite nth_overflow in I by easy. easy.
  - now apply in_map.
Qed.

Lemma whole_shaped : shaped (whole fr).
Proof.
  constructor; cbn [whole gd_X gd_numObs gd_numFixed gd_Zt gd_Lambdat gd_Lind gd_items gd_response gd_weights sp_cols sp_rows].
  - apply (re_X _ Reg).
  - apply (re_Xrow _ Reg).
  - rewrite map_length, seq_length. now rewrite (re_Lcols _ Reg).
  - intros row H. apply in_map_iff in H. destruct H as (r & <- & _). now rewrite map_length, seq_length.
  - now rewrite map_length, seq_length.
  - rewrite map_length, places_length. cbn [sp_cols]. apply (re_Lind _ Reg).
  - apply (re_y _ Reg).
  - apply (w_length fr Reg).
Qed.

Lemma restrict_whole u : length u = q -> restrict u (gd_items _ (whole fr)) = u.
Proof.
  intros H. unfold restrict. cbn [whole gd_items]. rewrite map_map. fold q. rewrite <- H. clear.
  rewrite (map_ext _ (fun r => nth r u 0)) by (intros; now rewrite Nat2Z.id).
  induction u as [|x u IH]; [reflexivity|]. cbn [length seq map nth]. f_equal. rewrite <- seq_shift, map_map. exact IH.
Qed.

(** The contribution of one observation. *)
Definition contribution (P : R -> R) (beta theta u : list R) (k : nat) : R :=
  binomial1 Rnum (clip (P (eta (whole fr) beta theta u k))) (nth k (gd_response _ (whole fr)) 0) (nth k (gd_weights _ (whole fr)) 0).

Lemma whole_loglik P beta theta u : factor_loglik P (whole fr) beta theta u = lsum (seq 1 n) (fun o => contribution P beta theta u (o - 1)).
Proof.
  unfold factor_loglik.
  etransitivity; [exact (loglik_lsum (fun k => clip (P (eta (whole fr) beta theta u k))) n _ _ (sh_y _ whole_shaped) (sh_w _ whole_shaped) 0)|].
  rewrite lsum_seq, <- seq_shift, lsum_map. apply lsum_ext. intros k _. unfold contribution. now rewrite Nat.sub_succ, Nat.sub_0_r.
Qed.

Lemma local_loglik P beta theta u C os : length u = q -> (forall c, In c C -> (1 <= c <= q)%nat) -> (forall o, In o os -> (1 <= o <= n)%nat) -> NoDup C ->
  (forall o r, In o os -> depends (fr_Lambdat _ fr) (fr_Zt _ fr) (o - 1) r -> In (r + 1)%nat C) ->
  factor_loglik P (local fr C os) beta theta (restrict u (gd_items _ (local fr C os))) = lsum os (fun o => contribution P beta theta u (o - 1)).
Proof.
  intros Lu HC Ho DC Cov. unfold factor_loglik.
  etransitivity; [exact (loglik_lsum (fun k => clip (P (eta (local fr C os) beta theta (restrict u (gd_items _ (local fr C os))) k))) (length os) _ _ (sh_y _ (local_shaped C os Ho)) (sh_w _ (local_shaped C os Ho)) 0)|].
  rewrite <- (lsum_nth 0%nat). apply sumR_ext. intros k Hk. cbn [Nat.add]. rewrite (local_eta fr Reg C os) by assumption.
  rewrite restrict_whole by exact Lu. unfold contribution. cbn [local gd_response gd_weights].
  rewrite !(nth_map' _ os k 0 0%nat) by exact Hk. reflexivity.
Qed.

Lemma active_range : forall C, In C (find_active (fr_Lambdat _ fr) (fr_Zt _ fr)) -> (forall c, In c C -> (1 <= c <= q)%nat) /\ NoDup C /\ C <> [].
Proof.
  intros C H. rewrite find_active_eq in H. apply in_map_iff in H. destruct H as (o & <- & H). apply filter_In in H. destruct H as [_ E]. split; [|split].
  - intros c Hc. apply in_map_iff in Hc. destruct Hc as (r & <- & Hr). apply rows_depends in Hr. rewrite (re_Lrows _ Reg) in Hr. unfold q. lia.
  - apply FinFun.Injective_map_NoDup; [intros a b; lia|]. apply NoDup_filter, seq_NoDup.
  - now destruct (product_rows _ _).
Qed.
Lemma one_to_range : (1 <= n)%nat -> one_to n = seq 1 n.
Proof. now destruct n; [lia|]. Qed.

Lemma terms_eq : (1 <= n)%nat ->
  let act := find_active (fr_Lambdat _ fr) (fr_Zt _ fr) in
  find_factorization_terms Rnum fr =
  (ext <- add_obs (unique identical act) act (seq 1 n) ;;
   Ok (map (GLMMTerm Rnum) (map (fun e => local fr (fst e) (snd e)) ext) ++ map (fun i => NormalTerm Rnum [Z.of_nat i] [0] [[1]]) (seq 0 q))).
Proof.
  intros Hn act. unfold find_factorization_terms. fold n q. fold act. rewrite one_to_range by exact Hn.
  destruct (add_obs (unique identical act) act (seq 1 n)) as [ext| | |] eqn:E; cbn [bind]; try reflexivity.
  destruct (proj1 (add_obs_spec _ act (seq 1 n) (seq_NoDup _ _)) ext E) as (M & P & I).
  rewrite (mapM_all _ (fun e => local fr (fst e) (snd e))).
  - cbn [bind]. do 2 f_equal. rewrite <- seq_shift, map_map. apply map_ext. intros i. do 2 f_equal. lia.
  - intros [C os] He. cbn [fst snd]. apply local_ok; [exact Reg| |].
    + intros c Hc. apply (active_range C); [|exact Hc]. apply (unique_In identical identical_eq). fold act. rewrite <- M. now apply (in_map fst) in He.
    + intros o Ho. assert (In o (seq 1 n)) as X by (rewrite <- P; apply in_concat; exists os; split; [now apply (in_map snd) in He|easy]).
      apply in_seq in X. lia.
Qed.

Lemma no_empty_active o : no_empty fr -> (o < n)%nat -> nth o (find_active (fr_Lambdat _ fr) (fr_Zt _ fr)) [] = map (fun i => (i + 1)%nat) (product_rows (fr_Lambdat _ fr) (nth o (cs_cols (fr_Zt _ fr)) [])).
Proof.
  intros NE Ho. rewrite find_active_eq. rewrite filter_all.
  - fold n. now rewrite (nth_map_seq _ n o []) by exact Ho.
  - intros k Hk. apply in_seq in Hk. destruct (NE k) as (r & D); [lia|].
    assert (In r (product_rows (fr_Lambdat _ fr) (nth k (cs_cols (fr_Zt _ fr)) []))) as I.
    { apply rows_depends. split; [|exact D]. destruct D as (j & _ & S). rewrite (re_Lrows _ Reg). now apply (re_Lambdat _ Reg) in S. }
    now destruct (product_rows _ _).
Qed.
End Shape.

(** * Theorems *)
Lemma C37_terms_main fr : regular fr -> no_empty fr -> (1 <= length (cs_cols (fr_Zt _ fr)))%nat ->
  exists ds, find_factorization_terms Rnum fr =
    Ok (map (GLMMTerm Rnum) ds ++ map (fun i => NormalTerm Rnum [Z.of_nat i] [0] [[1]]) (seq 0 (cs_rows (fr_Zt _ fr)))) /\
  (forall d, In d ds -> shaped d /\ gd_numFixed _ d = fr_numFixed _ fr /\ NoDup (gd_items _ d) /\ gd_items _ d <> [] /\
     (forall i, In i (gd_items _ d) -> (0 <= i < Z.of_nat (cs_rows (fr_Zt _ fr)))%Z) /\
     forall m, (forall l, In l (fr_Lind _ fr) -> (1 <= l <= Z.of_nat m)%Z) -> in_range m (gd_Lind _ d)) /\
  forall P beta theta u, length u = cs_rows (fr_Zt _ fr) ->
    fold_right Rplus 0 (map (fun d => factor_loglik P d beta theta (restrict u (gd_items _ d))) ds) = factor_loglik P (whole fr) beta theta u.
Proof.
  intros Reg NE Hn. set (n := length (cs_cols (fr_Zt _ fr))) in *. set (q := cs_rows (fr_Zt _ fr)).
  set (act := find_active (fr_Lambdat _ fr) (fr_Zt _ fr)).
  destruct (add_obs_spec (unique identical act) act (seq 1 n) (seq_NoDup _ _)) as (S1 & S2 & _).
  assert (X : exists ext, add_obs (unique identical act) act (seq 1 n) = Ok ext).
  { apply S2. intros o Ho. apply in_seq in Ho. exists (nth (o - 1) act []). split; [|apply incl_refl].
    apply (unique_In identical identical_eq). apply nth_In. unfold act. rewrite find_active_eq, map_length, filter_all.
    - rewrite seq_length. fold n. lia.
    - intros k Hk. apply in_seq in Hk. destruct (NE k) as (r & D); [lia|].
      assert (In r (product_rows (fr_Lambdat _ fr) (nth k (cs_cols (fr_Zt _ fr)) []))) as I.
      { apply rows_depends. split; [|exact D]. destruct D as (j & _ & S). rewrite (re_Lrows _ Reg). now apply (re_Lambdat _ Reg) in S. }
      now destruct (product_rows _ _). }
  destruct X as (ext & E). destruct (S1 ext E) as (M & Pm & I).
  exists (map (fun e => local fr (fst e) (snd e)) ext). split; [|split].
  - rewrite (terms_eq fr Reg Hn). fold n q act. now rewrite E.
  - intros d Hd. apply in_map_iff in Hd. destruct Hd as ([C os] & <- & He). cbn [fst snd].
    assert (HC : In C act). { apply (unique_In identical identical_eq). rewrite <- M. now apply (in_map fst) in He. }
    destruct (active_range fr Reg C HC) as (B & D & N).
    split; [|split; [|split; [|split; [|split]]]].
    + apply local_shaped; [exact Reg|]. intros o Ho. assert (In o (seq 1 n)) as X by (rewrite <- Pm; apply in_concat; exists os; split; [now apply (in_map snd) in He|easy]).
      apply in_seq in X. fold n. lia.
    + reflexivity.
    + cbn [local gd_items]. apply FinFun.Injective_map_NoDup; [intros a b; lia|exact D].
    + cbn [local gd_items]. now destruct C.
    + intros i Hi. cbn [local gd_items] in Hi. apply in_map_iff in Hi. destruct Hi as (c & <- & Hc). apply B in Hc. fold q in Hc. lia.
    + intros m Hm. apply local_Lind; [exact Reg|exact Hm].
  - intros P beta theta u Lu. rewrite (whole_loglik fr Reg). fold n. rewrite map_map.
    rewrite <- (lsum_perm _ _ (fun o => contribution fr P beta theta u (o - 1)) Pm), lsum_concat, lsum_map.
    apply lsum_ext. intros [C os] He. cbn [fst snd].
    assert (HC : In C act). { apply (unique_In identical identical_eq). rewrite <- M. now apply (in_map fst) in He. }
    destruct (active_range fr Reg C HC) as (B & D & N).
    assert (Ho : forall o, In o os -> (1 <= o <= n)%nat).
    { intros o Ho. assert (In o (seq 1 n)) as X by (rewrite <- Pm; apply in_concat; exists os; split; [now apply (in_map snd) in He|easy]). apply in_seq in X. lia. }
    apply (local_loglik fr Reg); try assumption.
    intros o r Io Dep. apply (I C os o He Io). unfold act. rewrite (no_empty_active fr Reg) by (try assumption; specialize (Ho o Io); fold n; lia).
    apply in_map_iff. exists r. split; [reflexivity|]. apply rows_depends. split; [|exact Dep].
    destruct Dep as (j & _ & S). rewrite (re_Lrows _ Reg). now apply (re_Lambdat _ Reg) in S.
Qed.

Lemma C37_fails_main fr : regular fr -> (1 <= length (cs_cols (fr_Zt _ fr)))%nat ->
  ((exists o r, (o < length (cs_cols (fr_Zt _ fr)))%nat /\ depends (fr_Lambdat _ fr) (fr_Zt _ fr) o r) -> exists ts, find_factorization_terms Rnum fr = Ok ts) /\
  ((forall o r, (o < length (cs_cols (fr_Zt _ fr)))%nat -> ~ depends (fr_Lambdat _ fr) (fr_Zt _ fr) o r) -> find_factorization_terms Rnum fr = Throw RuntimeError).
Proof.
  intros Reg Hn. set (n := length (cs_cols (fr_Zt _ fr))) in *. rewrite (terms_eq fr Reg Hn). fold n.
  set (act := find_active (fr_Lambdat _ fr) (fr_Zt _ fr)).
  destruct (add_obs_spec (unique identical act) act (seq 1 n) (seq_NoDup _ _)) as (S1 & S2 & S3). split.
  - intros (o & r & Ho & D).
    assert (X : exists ext, add_obs (unique identical act) act (seq 1 n) = Ok ext); [|destruct X as (ext & ->); eexists; reflexivity].
    apply S2. intros o' Ho'. apply in_seq in Ho'.
    assert (A : act <> []).
    { unfold act. rewrite find_active_eq. intros E. apply map_eq_nil in E.
      assert (In o []) as F; [|easy]. rewrite <- E. apply filter_In. split; [apply in_seq; fold n; lia|].
      assert (In r (product_rows (fr_Lambdat _ fr) (nth o (cs_cols (fr_Zt _ fr)) []))) as I.
      { apply rows_depends. split; [|exact D]. destruct D as (j & _ & S). rewrite (re_Lrows _ Reg). now apply (re_Lambdat _ Reg) in S. }
      now destruct (product_rows _ _). }
    destruct (Nat.lt_ge_cases (o' - 1) (length act)) as [L|L].
    + exists (nth (o' - 1) act []). split; [|apply incl_refl]. apply (unique_In identical identical_eq). now apply nth_In.
    + rewrite nth_overflow by exact L. destruct act as [|C act']; [easy|]. exists C. split; [now left|]. intros x [].
  - intros H. assert (act = []) as A.
    { unfold act. rewrite find_active_eq, filter_none; [reflexivity|]. intros o Ho. apply in_seq in Ho. destruct (product_rows _ _) as [|r l] eqn:E; [reflexivity|].
      exfalso. apply (H o r); [fold n in Ho; lia|]. apply (rows_depends (fr_Lambdat _ fr) (fr_Zt _ fr)). rewrite E. now left. }
    rewrite A. destruct n; [lia|reflexivity].
Qed.

(** The scopes of the factors are the sets of random effects of the observations. *)
Lemma C37_scopes_main fr : regular fr -> (1 <= length (cs_cols (fr_Zt _ fr)))%nat ->
  forall ts, find_factorization_terms Rnum fr = Ok ts ->
  (forall d, In (GLMMTerm Rnum d) ts -> exists o, (o < length (cs_cols (fr_Zt _ fr)))%nat /\
     forall i, In i (gd_items _ d) <-> exists r, i = Z.of_nat r /\ depends (fr_Lambdat _ fr) (fr_Zt _ fr) o r) /\
  (forall o r0, (o < length (cs_cols (fr_Zt _ fr)))%nat -> depends (fr_Lambdat _ fr) (fr_Zt _ fr) o r0 ->
     exists d, In (GLMMTerm Rnum d) ts /\
     forall i, In i (gd_items _ d) <-> exists r, i = Z.of_nat r /\ depends (fr_Lambdat _ fr) (fr_Zt _ fr) o r).
Proof.
  intros Reg Hn ts Hts. set (n := length (cs_cols (fr_Zt _ fr))) in *. rewrite (terms_eq fr Reg Hn) in Hts. fold n in Hts.
  set (act := find_active (fr_Lambdat _ fr) (fr_Zt _ fr)) in *.
  destruct (add_obs_spec (unique identical act) act (seq 1 n) (seq_NoDup _ _)) as (S1 & _ & _).
  destruct (add_obs (unique identical act) act (seq 1 n)) as [ext| | |] eqn:E; try discriminate.
  destruct (S1 ext eq_refl) as (M & _ & _). injection Hts as <-.
  assert (Items : forall o C os i, C = map (fun r => (r + 1)%nat) (product_rows (fr_Lambdat _ fr) (nth o (cs_cols (fr_Zt _ fr)) [])) ->
    (In i (gd_items _ (local fr C os)) <-> exists r, i = Z.of_nat r /\ depends (fr_Lambdat _ fr) (fr_Zt _ fr) o r)).
  { intros o C os i ->. cbn [local gd_items]. rewrite map_map, in_map_iff. split.
    - intros (r & <- & Hr). exists r. split; [lia|]. now apply rows_depends in Hr.
    - intros (r & -> & D). exists r. split; [lia|]. apply rows_depends. split; [|exact D].
      destruct D as (j & _ & S). rewrite (re_Lrows _ Reg). now apply (re_Lambdat _ Reg) in S. }
  split.
  - intros d Hd. apply in_app_or in Hd. destruct Hd as [Hd|Hd]; apply in_map_iff in Hd; destruct Hd as (x & Ex & Hd); [|discriminate].
    injection Ex as ->. apply in_map_iff in Hd. destruct Hd as ([C os] & <- & He). cbn [fst snd].
    assert (HC : In C act). { apply (unique_In identical identical_eq). rewrite <- M. now apply (in_map fst) in He. }
    unfold act in HC. rewrite find_active_eq in HC. apply in_map_iff in HC. destruct HC as (o & HC & Ho).
    apply filter_In in Ho. destruct Ho as [Ho _]. apply in_seq in Ho. exists o. split; [fold n in Ho; lia|].
    intros i. apply Items. now symmetry.
  - intros o r0 Ho D.
    assert (HC : In (map (fun r => (r + 1)%nat) (product_rows (fr_Lambdat _ fr) (nth o (cs_cols (fr_Zt _ fr)) []))) act).
    { unfold act. rewrite find_active_eq. apply in_map_iff. exists o. split; [reflexivity|]. apply filter_In. split; [apply in_seq; fold n; lia|].
      assert (In r0 (product_rows (fr_Lambdat _ fr) (nth o (cs_cols (fr_Zt _ fr)) []))) as I.
      { apply rows_depends. split; [|exact D]. destruct D as (j & _ & S). rewrite (re_Lrows _ Reg). now apply (re_Lambdat _ Reg) in S. }
      now destruct (product_rows _ _). }
    apply (unique_In identical identical_eq) in HC. rewrite <- M in HC. apply in_map_iff in HC. destruct HC as ([C os] & EC & He). cbn [fst] in EC.
    exists (local fr C os). split; [|intros i; now apply Items].
    apply in_or_app. left. apply in_map. apply in_map_iff. exists (C, os). auto.
Qed.

Lemma C38_positions_main {A} (Lam Z : csc A) : exists full, length full = length (cs_cols Z) /\
  (forall o r, (o < length (cs_cols Z))%nat -> (r < cs_rows Lam)%nat -> (In (r + 1)%nat (nth o full []) <-> depends Lam Z o r)) /\
  (forall s, In s full -> forall i, In i s -> (1 <= i <= cs_rows Lam)%nat) /\
  find_active Lam Z = filter (fun s => match s with [] => false | _ => true end) full.
Proof.
  exists (map (fun o => map (fun i => (i + 1)%nat) (product_rows Lam (nth o (cs_cols Z) []))) (seq 0 (length (cs_cols Z)))). split; [|split; [|split]].
  - now rewrite map_length, seq_length.
  - intros o r Ho Hr. rewrite (nth_map_seq _ _ o []) by exact Ho. rewrite in_map_iff. split.
    + intros (r' & E & I). assert (r' = r) by lia. subst r'. now apply rows_depends in I.
    + intros D. exists r. split; [easy|]. now apply rows_depends.
  - intros s Hs i Hi. apply in_map_iff in Hs. destruct Hs as (o & <- & _). apply in_map_iff in Hi. destruct Hi as (r & <- & Hr). apply rows_depends in Hr. lia.
  - rewrite find_active_eq. generalize (seq 0 (length (cs_cols Z))) as l. induction l as [|o l IH]; [reflexivity|]. cbn [filter map].
    destruct (product_rows Lam (nth o (cs_cols Z) [])) eqn:E; cbn [nonempty map]; [exact IH|]. rewrite E. cbn [map]. f_equal. exact IH.
Qed.
