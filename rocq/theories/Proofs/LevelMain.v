(** One level and the whole basis. *)
From Coq Require Import List Reals ZArith Lra Lia Arith.
From Coquelicot Require Import Coquelicot.
From Verif Require Import Model.Base Model.Vectors Model.SparseGrid Model.BasisLevel Spec.GLMMSpec Spec.MatrixSpec
  Spec.SplineSpec Spec.NodalSpec Spec.SymmetrySpec Proofs.ListLemmas Proofs.SumLemmas Proofs.GLMMLemmas Proofs.VectorLemmas
  Proofs.KnotMain Proofs.SplineLemmas Proofs.SplineMain Proofs.FamilyLemmas.
Import ListNotations.
Local Open Scope R_scope.

Lemma cont_glue (f p r : R -> R) (x : R) (e : R) : 0 < e ->
  (forall y, x - e < y -> y < x -> f y = p y) -> (forall y, x <= y -> y < x + e -> f y = r y) ->
  continuity_pt p x -> continuity_pt r x -> p x = r x -> continuity_pt f x.
Proof.
  intros He Hp Hr Cp Cr E eps Heps. destruct (Cp eps Heps) as (d1 & P1 & H1). destruct (Cr eps Heps) as (d2 & P2 & H2).
  exists (Rmin e (Rmin d1 d2)). split; [repeat apply Rmin_glb_lt; auto|].
  intros y [[_ Hy] Hd]. cbn in *. unfold R_dist in *.
  pose proof (Rmin_l e (Rmin d1 d2)). pose proof (Rmin_r e (Rmin d1 d2)). pose proof (Rmin_l d1 d2). pose proof (Rmin_r d1 d2).
  assert (E0 : f x = r x) by (apply Hr; lra).
  destruct (Rlt_dec y x) as [N|N].
  - rewrite (Hp y), E0, <- E; auto; [|rewrite Rabs_left in Hd by lra; lra].
    apply H1. split; [split; auto; exact I|]. cbn. unfold R_dist. lra.
  - rewrite (Hr y), E0; [|lra|rewrite Rabs_pos_eq in Hd by lra; lra].
    apply H2. split; [split; auto; exact I|]. cbn. unfold R_dist. lra.
Qed.

Section Basis.
Variable q : R -> R.
Hypothesis NL : normal_like q.
Variable L : nat.
Hypothesis HL : (1 <= L)%nat.
Hypothesis Fit : knots_fit q L.
Variable inverse : rmat -> rmat.
Variable solve : rmat -> rmat -> rmat.
Hypothesis Inv3 : forall A, inverts inverse 3 A.
Hypothesis Inv4 : forall A, inverts inverse 4 A.
Hypothesis Sol : solves_systems solve.
Notation bw := (bandwidth q L).

Section Level.
Variable l : nat.
Hypothesis Hl : (l <= L)%nat.
Notation n := (numKnots l).
Notation knot := (kn q L l).
Notation count := (count q L l).

Lemma cont_count (F : nat -> R -> R) : (forall i (x : R), continuity_pt (F i) x) ->
  (forall i, (i < n)%nat -> F i (knot i) = F (S i) (knot i)) ->
  forall x : R, continuity_pt (fun y => F (count y) y) x.
Proof.
  (* from the derivative of the primitive would need integrals: glue directly *)
  intros D E x. destruct (count_interval q NL L HL l Hl x) as (C1 & C2 & C3). set (c := count x) in *.
  assert (HR : exists e, 0 < e /\ forall y, x <= y -> y < x + e -> count y = c).
  { destruct (Nat.eq_dec c n) as [Ec|Nc].
    - exists 1. split; [lra|]. intros y Hy _. apply (count_is q NL L HL l Hl); auto; [|lia]. intros Hc. specialize (C2 Hc). lra.
    - specialize (C3 ltac:(lia)). exists (knot c - x). split; [lra|]. intros y Hy Hlt.
      apply (count_is q NL L HL l Hl); auto; [|intros; lra]. intros Hc. specialize (C2 Hc). lra. }
  destruct HR as (e & He & HR).
  assert (HLft : exists e' c', 0 < e' /\ (forall y, x - e' < y -> y < x -> count y = c') /\ F c' x = F c x).
  { destruct (Nat.eq_dec c 0) as [Ec|Nc].
    - exists 1, c. split; [lra|]. split; auto. intros y _ Hy. apply (count_is q NL L HL l Hl); auto; [lia|]. intros Hc. specialize (C3 Hc). lra.
    - specialize (C2 ltac:(lia)). destruct (Req_dec (knot (c - 1)) x) as [Ex|Nx].
      + pose proof (E (c - 1)%nat ltac:(lia)) as G. rewrite Ex in G. replace (S (c - 1)) with c in G by lia.
        destruct (Nat.eq_dec c 1) as [Ec|Nc1].
        * exists 1, (c - 1)%nat. split; [lra|]. split; auto. intros y _ Hy.
          apply (count_is q NL L HL l Hl); [lia|lia|]. intros _. lra.
        * assert (K : knot (c - 2) < knot (c - 1)) by (apply (kn_lt q NL L HL l Hl); lia).
          exists (x - knot (c - 2)), (c - 1)%nat. split; [lra|]. split; auto. intros y Hy Hlt.
          apply (count_is q NL L HL l Hl); [lia| |intros _; lra]. intros _. replace (c - 1 - 1)%nat with (c - 2)%nat by lia. lra.
      + exists (x - knot (c - 1)), c. split; [lra|]. split; auto. intros y Hy Hlt.
        apply (count_is q NL L HL l Hl); auto; [intros; lra|]. intros Hc. specialize (C3 Hc). lra. }
  destruct HLft as (e' & c' & He' & HLft & Ev).
  apply (cont_glue _ (F c') (F c) x (Rmin e e')).
  + now apply Rmin_glb_lt.
  + intros y H1 H2. pose proof (Rmin_r e e'). rewrite HLft; auto; lra.
  + intros y H1 H2. pose proof (Rmin_l e e'). rewrite HR; auto; lra.
  + apply D. + apply D. + exact Ev.
Qed.

(** The coefficients found in the table. *)
Definition coefs (b : level_data) (pos i j : nat) : R := entry (ld_spline b) (4 * i + j) pos.
Definition phi_of (b : level_data) (pos : nat) (x : R) : R :=
  if Nat.ltb 0 l then cubic (coefs b pos (count x)) x else 1.
Definition phi1_of (b : level_data) (pos : nat) (x : R) : R :=
  if Nat.ltb 0 l then cubic1 (coefs b pos (count x)) x else 0.
Definition phi2_of (b : level_data) (pos : nat) (x : R) : R :=
  if Nat.ltb 0 l then cubic2 (coefs b pos (count x)) x else 0.

Lemma mat_get_inv m i j v : mat_get m i j = Ok v -> entry m i j = v.
Proof.
  unfold mat_get, vec_get, entry. destruct (nth_error m i) as [row|] eqn:E; [|discriminate]. cbn [bind].
  destruct (nth_error row j) eqn:E2; [|discriminate]. intros [= <-]. rewrite (nth_error_nth _ _ _ E). exact (nth_error_nth _ _ _ E2).
Qed.

Record built (b : level_data) : Prop := {
  bt_level : ld_level b = l;
  bt_knots : find_knots q l L = Ok (ld_knots b);
  bt_grid : find_gridIds q l L = Ok (ld_gridIds b);
  bt_bw : ld_bandwidth b = bw;
  bt_get : forall i j pos, (i <= n)%nat -> (j < 4)%nat -> (pos < 2 ^ l)%nat ->
     mat_get (ld_spline b) (4 * i + j) pos = Ok (coefs b pos i j);
  bt_table : (0 < l)%nat -> exists cf, table q L l cf /\ forall i j pos, (i <= n)%nat -> (j < 4)%nat -> (pos < 2 ^ l)%nat -> coefs b pos i j = cf pos i j
}.
Lemma level_ok : exists b, level_new q inverse solve l L = Ok b /\ built b.
Proof.
  unfold level_new. rewrite (knots_ok q NL L HL Fit l Hl). cbn [bind].
  destruct (gridIds_ok q NL L HL Fit l Hl) as (g & Eg & _). rewrite Eg. cbn [bind].
  destruct (spline_ok q NL L HL Fit l Hl inverse solve Inv3 Inv4 Sol) as (m & cf & Em & T & Tb). rewrite Em. cbn [bind].
  eexists. split; [reflexivity|]. constructor; cbn [ld_level ld_knots ld_spline ld_bandwidth ld_gridIds]; auto.
  - apply (knots_ok q NL L HL Fit l Hl).
  - intros i j pos Hi Hj Hp. unfold coefs. cbn [ld_spline]. rewrite (T i j pos) by auto. f_equal. symmetry. apply mat_get_inv. now apply T.
  - intros H0. exists cf. split; auto. intros i j pos Hi Hj Hp. unfold coefs. cbn [ld_spline]. apply mat_get_inv. now apply T.
Qed.

Variable b : level_data.
Hypothesis BT : built b.
Definition interval (x : R) : nat := if Rle_dec x (knot 0) then 0%nat else count x.
Lemma interval_le x : (interval x <= n)%nat.
Proof. unfold interval. destruct (Rle_dec x (knot 0)); [lia|]. apply (count_interval q NL L HL l Hl). Qed.
Lemma interval_id x : x - knot 0 < 2 ^ 32 * bw -> findIntervalId b x = Ok (interval x).
Proof. intros Hx. destruct BT. now apply (interval_main q NL L HL Fit l Hl). Qed.
Lemma count_first x : x <= knot 0 -> count x = 0%nat \/ (x = knot 0 /\ count x = 1%nat).
Proof.
  intros H. pose proof (numKnots_pos l). destruct (Req_dec x (knot 0)) as [->|N].
  - right. split; auto. apply (count_is q NL L HL l Hl); [lia| |].
    + intros _. simpl. lra.
    + intros H1. apply (kn_lt q NL L HL l Hl); auto.
  - left. apply (count_is q NL L HL l Hl); [lia|lia|]. intros _. lra.
Qed.
(** On the first two intervals the coefficients are the same. *)
Lemma coefs_interval x pos j : (0 < l)%nat -> (pos < 2 ^ l)%nat -> (j < 4)%nat -> coefs b pos (interval x) j = coefs b pos (count x) j.
Proof.
  intros H0 Hp Hj. unfold interval. destruct (Rle_dec x (knot 0)) as [H|H]; auto.
  destruct (count_first x H) as [->|(_ & ->)]; auto. destruct (bt_table b BT H0) as (cf & T & E).
  pose proof (numKnots_pos l). rewrite !E by (auto; lia). apply (t_first _ _ _ _ T).
Qed.
Lemma cubic_ext c c' x : (forall j, (j < 4)%nat -> c j = c' j) -> cubic c x = cubic c' x /\ cubic1 c x = cubic1 c' x /\ cubic2 c x = cubic2 c' x.
Proof. intros H. unfold cubic, cubic1, cubic2. rewrite !H by lia. auto. Qed.

Lemma eval_ok x pos : (pos < 2 ^ l)%nat -> x - knot 0 < 2 ^ 32 * bw ->
  level_evaluate b x pos = Ok (phi_of b pos x) /\ level_evaluateDerivative b x pos = Ok (phi1_of b pos x) /\
  level_evaluateSecondDerivative b x pos = Ok (phi2_of b pos x).
Proof.
  intros Hp Hx. unfold level_evaluate, level_evaluateDerivative, level_evaluateSecondDerivative, phi_of, phi1_of, phi2_of.
  rewrite (interval_id x Hx). cbn [bind]. rewrite (bt_level b BT). destruct (Nat.ltb_spec 0 l) as [H0|H0]; auto.
  pose proof (interval_le x) as Hi.
  destruct (cubic_ext (coefs b pos (count x)) (coefs b pos (interval x)) x) as (E0 & E1 & E2).
  { intros j Hj. symmetry. now apply coefs_interval. }
  rewrite E0, E1, E2. unfold sum_powers. cbn [seq foldM].
  rewrite !(bt_get b BT) by (auto; lia). cbn [bind fst snd]. unfold cubic, cubic1, cubic2.
  repeat split; f_equal; simpl; ring.
Qed.
Lemma derive_ok pos (x : R) : (pos < 2 ^ l)%nat ->
  is_derive (phi_of b pos) x (phi1_of b pos x) /\ is_derive (phi1_of b pos) x (phi2_of b pos x) /\ continuity_pt (phi2_of b pos) x.
Proof.
  intros Hp. unfold phi_of, phi1_of, phi2_of. destruct (Nat.ltb_spec 0 l) as [H0|H0].
  - destruct (bt_table b BT H0) as (cf & T & E).
    assert (E' : forall i x, (i <= n)%nat -> cubic (coefs b pos i) x = cubic (cf pos i) x /\ cubic1 (coefs b pos i) x = cubic1 (cf pos i) x /\ cubic2 (coefs b pos i) x = cubic2 (cf pos i) x).
    { intros i y Hi. apply cubic_ext. intros j Hj. now apply E. }
    split; [|split].
    + apply (glue_count q NL L HL l Hl (fun i => cubic (coefs b pos i)) (fun i => cubic1 (coefs b pos i))).
      * intros. apply cubic_derive.
      * intros i Hi. destruct (E' i (knot i) ltac:(lia)) as (-> & _). destruct (E' (S i) (knot i) ltac:(lia)) as (-> & _). now apply (t_glue _ _ _ _ T).
      * intros i Hi. destruct (E' i (knot i) ltac:(lia)) as (_ & -> & _). destruct (E' (S i) (knot i) ltac:(lia)) as (_ & -> & _).
        now apply (t_glue1 _ _ _ _ T).
    + apply (glue_count q NL L HL l Hl (fun i => cubic1 (coefs b pos i)) (fun i => cubic2 (coefs b pos i))).
      * intros. apply cubic1_derive.
      * intros i Hi. destruct (E' i (knot i) ltac:(lia)) as (_ & -> & _). destruct (E' (S i) (knot i) ltac:(lia)) as (_ & -> & _).
        now apply (t_glue1 _ _ _ _ T).
      * intros i Hi. destruct (E' i (knot i) ltac:(lia)) as (_ & _ & ->). destruct (E' (S i) (knot i) ltac:(lia)) as (_ & _ & ->).
        now apply (t_glue2 _ _ _ _ T).
    + apply (cont_count (fun i => cubic2 (coefs b pos i))).
      * intros i y. apply derivable_continuous_pt. unfold cubic2.
        exists (6 * coefs b pos i 3). apply is_derive_Reals. auto_derive; auto. ring.
      * intros i Hi. destruct (E' i (knot i) ltac:(lia)) as (_ & _ & ->). destruct (E' (S i) (knot i) ltac:(lia)) as (_ & _ & ->).
        now apply (t_glue2 _ _ _ _ T).
  - split; [apply (is_derive_const 1 x)|split; [apply (is_derive_const 0 x)|]].
    apply continuity_pt_const. intros ? ?. reflexivity.
Qed.
Lemma value_ok pos i : (pos < 2 ^ l)%nat -> (i < n)%nat -> phi_of b pos (knot i) = unit_entry (2 * pos) i.
Proof.
  intros Hp Hi. assert (Ec : count (knot i) = S i).
  { apply (count_is q NL L HL l Hl); [lia| |].
    - intros _. replace (S i - 1)%nat with i by lia. lra.
    - intros H. apply (kn_lt q NL L HL l Hl); lia. }
  unfold phi_of. rewrite Ec. destruct (Nat.ltb_spec 0 l) as [H0|H0].
  - destruct (bt_table b BT H0) as (cf & T & E).
    destruct (cubic_ext (coefs b pos (S i)) (cf pos (S i)) (knot i)) as (E0 & _).
    { intros j Hj. apply E; auto. }
    rewrite E0. now apply (t_value _ _ _ _ T).
  - assert (E : (l = 0)%nat) by lia. unfold numKnots in Hi. rewrite E in Hp, Hi. cbn in Hp, Hi.
    assert (pos = 0)%nat by lia. assert (i = 0)%nat by lia. subst pos i. reflexivity.
Qed.
Lemma phi_mirror pos x : (pos < 2 ^ l)%nat -> phi_of b (2 ^ l - 1 - pos) x = phi_of b pos (- x).
Proof.
  intros Hp. pose proof (numKnots_pos l) as Hn. unfold phi_of. destruct (Nat.ltb_spec 0 l) as [H0|H0]; [|reflexivity].
  destruct (bt_table b BT H0) as (cf & T & E). destruct (count_interval q NL L HL l Hl x) as (C1 & C2 & C3). set (c := count x) in *.
  assert (M : cubic (coefs b (2 ^ l - 1 - pos) c) x = cubic (cf pos (n - c)%nat) (- x)).
  { unfold cubic. rewrite !E by lia. replace c with (n - (n - c))%nat by lia. rewrite !(t_mirror _ _ _ _ T) by lia.
    replace (n - (n - (n - c)))%nat with (n - c)%nat by lia. ring. }
  rewrite M.
  assert (Ex : forall i, (i <= n)%nat -> cubic (coefs b pos i) (- x) = cubic (cf pos i) (- x)).
  { intros i Hi. apply cubic_ext. intros j Hj. now apply E. }
  assert (Sy : forall i, (i < n)%nat -> knot (n - 1 - i) = - knot i) by (intros i Hi; now apply kn_sym).
  destruct (Nat.eq_dec c 0) as [Ec|Nc].
  { rewrite (count_is q NL L HL l Hl (- x) (n - c)%nat); [symmetry; apply Ex; lia|lia| |lia]. intros _. specialize (C3 ltac:(lia)).
    rewrite Ec in C3 |- *. replace (n - 0 - 1)%nat with (n - 1 - 0)%nat by lia. rewrite Sy by lia. lra. }
  specialize (C2 ltac:(lia)). destruct (Req_dec (knot (c - 1)) x) as [K|K].
  - rewrite (count_is q NL L HL l Hl (- x) (n - c + 1)%nat).
    + rewrite Ex by lia. replace (- x) with (knot (n - c)).
      * rewrite Nat.add_1_r. apply (t_glue _ _ _ _ T); lia.
      * rewrite <- K, <- Sy by lia. f_equal. lia.
    + lia.
    + intros _. replace (n - c + 1 - 1)%nat with (n - 1 - (c - 1))%nat by lia. rewrite Sy by lia. lra.
    + intros Hc. replace (n - c + 1)%nat with (n - 1 - (c - 2))%nat by lia. rewrite Sy by lia.
      assert (knot (c - 2) < knot (c - 1)) by (apply (kn_lt q NL L HL l Hl); lia). lra.
  - rewrite (count_is q NL L HL l Hl (- x) (n - c)%nat); [symmetry; apply Ex; lia|lia| |].
    + intros Hc. replace (n - c - 1)%nat with (n - 1 - c)%nat by lia. rewrite Sy by lia. specialize (C3 ltac:(lia)). lra.
    + intros Hc. replace (n - c)%nat with (n - 1 - (c - 1))%nat by lia. rewrite Sy by lia. lra.
Qed.
Lemma knot_ok pos : (pos < 2 ^ l)%nat -> level_knot b pos = Ok (knot (2 * pos)).
Proof.
  intros Hp. unfold level_knot. rewrite (ld_knots_eq q NL L HL Fit l Hl b (bt_knots b BT)).
  unfold vec_get. rewrite (map_nth_error _ pos (seq 0 (2 ^ l)) (d := pos)); auto.
  rewrite (nth_error_nth' _ 0%nat) by (rewrite seq_length; auto). now rewrite seq_nth.
Qed.
End Level.

(** Knots of a level are among those of the higher ones. *)
Definition up_index (l' l j : nat) : nat := (2 * j + 1) * 2 ^ (l - l') - 1.
Lemma up_index_lt l' l j : (l' <= l)%nat -> (j < 2 ^ l')%nat -> (up_index l' l j < numKnots l)%nat.
Proof.
  intros H Hj. unfold up_index, numKnots. replace (2 ^ (l + 1))%nat with (2 * 2 ^ l' * 2 ^ (l - l'))%nat.
  2:{ rewrite Nat.add_1_r. cbn [Nat.pow]. replace l with (l' + (l - l'))%nat at 2 by lia. rewrite Nat.pow_add_r. lia. }
  pose proof (pow2_ge1 (l - l')). nia.
Qed.
Lemma knot_up l' l j : (l' <= l)%nat -> (j < 2 ^ l')%nat -> kn q L l' (2 * j) = kn q L l (up_index l' l j).
Proof.
  intros H Hj. unfold kn, kd. do 3 f_equal. unfold prob, eps, up_index. pose proof (pow2_ge1 (l - l')) as P1.
  replace (S ((2 * j + 1) * 2 ^ (l - l') - 1)) with ((2 * j + 1) * 2 ^ (l - l'))%nat by nia.
  replace (S (2 * j)) with (2 * j + 1)%nat by lia. rewrite mult_INR, pow2_INR.
  replace (2 ^ (l + 1)) with (2 ^ (l - l') * 2 ^ (l' + 1)) by (rewrite <- pow_add; f_equal; lia).
  field. split; apply pow_nonzero; lra.
Qed.
Lemma up_index_own l' l j j' : (l' <= l)%nat -> (j' < 2 ^ l')%nat -> (j < 2 ^ l)%nat ->
  (2 * j = up_index l' l j')%nat <-> (l' = l /\ j' = j).
Proof.
  intros H Hj' Hj. unfold up_index. split.
  - intros E. destruct (Nat.eq_dec l' l) as [->|N].
    + split; auto. rewrite Nat.sub_diag in E. simpl in E. lia.
    + exfalso. replace (l - l')%nat with (S (l - l' - 1)) in E by lia. cbn [Nat.pow] in E.
      pose proof (pow2_ge1 (l - l' - 1)). nia.
  - intros [-> ->]. rewrite Nat.sub_diag. simpl. lia.
Qed.

Definition the_x (l j : nat) : R := kn q L l (2 * j).
Definition in_domain (y : R) : Prop := y - the_x L 0 < 2 ^ 32 * bw.
Lemma first_le l : (l <= L)%nat -> kn q L L 0 <= kn q L l 0.
Proof.
  intros Hl. pose proof (pow2_ge1 l). pose proof (knot_up l L 0 Hl ltac:(lia)) as K. simpl (2 * 0)%nat in K. rewrite K.
  apply (kn_le q NL L HL L (le_n L)); [lia|]. apply up_index_lt; auto; lia.
Qed.
Lemma x_domain l j : (l <= L)%nat -> (j < 2 ^ l)%nat -> in_domain (the_x l j).
Proof.
  intros Hl Hj. unfold in_domain, the_x, kn. 
  pose proof (kd_bound q NL L HL Fit l Hl (2 * j)) as B1. pose proof (kd_bound q NL L HL Fit L (le_n L) (2 * 0)) as B2.
  rewrite <- Rmult_minus_distr_r, <- minus_IZR. apply Rmult_lt_compat_r; [apply (bw_pos q NL L HL)|].
  replace (2 ^ 32) with (IZR (2 ^ 32)) by (symmetry; exact (pow_IZR 2 32)). apply IZR_lt.
  assert (2 * j < numKnots l)%nat by (unfold numKnots; rewrite Nat.add_1_r; cbn [Nat.pow]; lia).
  pose proof (numKnots_pos L). specialize (B1 ltac:(lia)). specialize (B2 ltac:(lia)). lia.
Qed.

Lemma x_first : - the_x L 0 < 2 ^ 31 * bw.
Proof.
  unfold the_x, kn. pose proof (numKnots_pos L). pose proof (kd_bound q NL L HL Fit L (le_n L) (2 * 0) ltac:(lia)) as B.
  rewrite Ropp_mult_distr_l, <- opp_IZR. apply Rmult_lt_compat_r; [apply (bw_pos q NL L HL)|].
  replace (2 ^ 31) with (IZR (2 ^ 31)) by (symmetry; exact (pow_IZR 2 31)). apply IZR_lt. lia.
Qed.

Lemma x_centre : the_x 0 0 = 0.
Proof.
  unfold the_x, kn, kd, kid, place_of. replace (prob 0 (2 * 0)) with (1 / 2).
  2:{ unfold prob, eps. simpl. lra. }
  rewrite (q_half q NL). replace (10 * 0 / unit_q q L) with 0 by (unfold Rdiv; ring).
  unfold truncate. destruct (Rle_dec 0 0); [|lra]. replace 0 with (INR 0) at 1 by reflexivity. rewrite Int_part_INR. simpl. ring.
Qed.

Lemma C33_full : exists b x phi phi1 phi2, basis_new q inverse solve L = Ok b /\
  total_basis b L (fun y => y - x L 0%nat < 2 ^ 32 * bw) x phi /\ nodal L x phi /\
  smooth_basis b L (fun y => y - x L 0%nat < 2 ^ 32 * bw) phi phi1 phi2 /\
  x 0%nat 0%nat = 0 /\ (forall y, phi 0%nat 0%nat y = 1) /\ mirrored L x phi /\ - x L 0%nat < 2 ^ 31 * bw.
Proof.
  assert (Lv : exists bs, mapM (fun l => level_new q inverse solve l L) (seq 0 (L + 1)) = Ok bs /\
    forall l, (l <= L)%nat -> exists b, nth_error bs l = Some b /\ built l b).
  { assert (G : forall m r, (m + r = L + 1)%nat -> exists bs, mapM (fun l => level_new q inverse solve l L) (seq m r) = Ok bs /\
      forall i, (i < r)%nat -> exists b, nth_error bs i = Some b /\ built (m + i) b).
    { intros m r. revert m. induction r as [|r IH]; intros m E.
      - exists []. split; auto. intros; lia.
      - cbn [seq mapM]. destruct (level_ok m ltac:(lia)) as (b & Eb & Hb). rewrite Eb. cbn [bind].
        destruct (IH (S m) ltac:(lia)) as (bs & Ebs & Hbs). rewrite Ebs. cbn [bind]. exists (b :: bs). split; auto.
        intros [|i] Hi; [exists b; rewrite Nat.add_0_r; auto|]. destruct (Hbs i ltac:(lia)) as (b' & A & B). exists b'. split; auto.
        replace (m + S i)%nat with (S m + i)%nat by lia. auto. }
    destruct (G 0%nat (L + 1)%nat eq_refl) as (bs & E & H). exists bs. split; auto. intros l Hl. apply H. lia. }
  destruct Lv as (bs & Ebs & Hbs). unfold basis_new. rewrite Ebs. cbn [bind].
  set (dflt := mkData 0 [] [] 0 []). set (lv := fun l => nth l bs dflt).
  assert (Hlv : forall l, (l <= L)%nat -> built l (lv l) /\ vec_get (map level_of bs) l = Ok (level_of (lv l))).
  { intros l Hl. destruct (Hbs l Hl) as (b & E & B). unfold lv. rewrite (nth_error_nth _ _ dflt E). split; auto.
    unfold vec_get. now rewrite (map_nth_error level_of _ _ E). }
  exists (mkBasis (map level_of bs) L), the_x, (fun l => phi_of l (lv l)), (fun l => phi1_of l (lv l)), (fun l => phi2_of l (lv l)).
  split; [reflexivity|].
  assert (Dom : forall l y, (l <= L)%nat -> y - the_x L 0 < 2 ^ 32 * bw -> y - kn q L l 0 < 2 ^ 32 * bw).
  { intros l y Hl Hy. pose proof (first_le l Hl) as F. unfold the_x in Hy. simpl (2 * 0)%nat in Hy. lra. }
  split; [|split; [|split; [|split; [exact x_centre|split; [reflexivity|split; [|exact x_first]]]]]].
  - constructor; cbn.
    + reflexivity.
    + intros l j Hl Hj. unfold b_getKnot. cbn. destruct (Hlv l Hl) as [B ->]. cbn [bind level_of bl_knot]. now apply (knot_ok l Hl).
    + intros l j Hl Hj. now apply x_domain.
    + intros l j y Hl Hj Hy. unfold b_evaluate. cbn. destruct (Hlv l Hl) as [B ->]. cbn [bind level_of bl_eval].
      apply (eval_ok l Hl); auto.
  - intros l j l' j' Hl Hj Hl' Hj'. unfold the_x. rewrite (knot_up l' l j' Hl' Hj').
    rewrite (value_ok l Hl); [|apply Hlv; auto|auto|now apply up_index_lt].
    unfold unit_entry. pose proof (up_index_own l' l j j' Hl' Hj' Hj) as U.
    destruct (Nat.eqb_spec (2 * j) (up_index l' l j')) as [E|E].
    + apply U in E. destruct E as [-> ->]. now rewrite !Nat.eqb_refl.
    + destruct (Nat.eqb_spec l' l) as [->|]; cbn [andb]; auto. destruct (Nat.eqb_spec j' j) as [->|]; auto.
      exfalso. apply E. now apply U.
  - constructor.
    + intros l j y Hl Hj Hy. unfold b_evaluate, b_evaluateDerivative, b_evaluateSecondDerivative. cbn.
      destruct (Hlv l Hl) as [B ->]. cbn [bind level_of bl_eval bl_deriv bl_deriv2]. apply (eval_ok l Hl); auto.
    + intros l j y Hl Hj. apply (derive_ok l Hl); auto. apply Hlv; auto.
    + intros l j y Hl Hj. apply (derive_ok l Hl); auto. apply Hlv; auto.
    + intros l j y Hl Hj. apply (derive_ok l Hl); auto. apply Hlv; auto.
  - intros l j Hl Hj. split.
    + unfold the_x. pose proof (kn_sym q NL L HL l Hl (2 * j)) as K. assert (E : numKnots l = (2 * 2 ^ l - 1)%nat) by apply n_two_pow.
      rewrite E in K. specialize (K ltac:(lia)). rewrite <- K. f_equal. lia.
    + intros y. apply (phi_mirror l Hl); auto. apply Hlv; auto.
Qed.
Lemma C33_all : exists b x phi phi1 phi2, basis_new q inverse solve L = Ok b /\
  total_basis b L (fun y => y - x L 0%nat < 2 ^ 32 * bw) x phi /\ nodal L x phi /\
  smooth_basis b L (fun y => y - x L 0%nat < 2 ^ 32 * bw) phi phi1 phi2 /\
  x 0%nat 0%nat = 0 /\ forall y, phi 0%nat 0%nat y = 1.
Proof. destruct C33_full as (b & x & phi & p1 & p2 & H1 & H2 & H3 & H4 & H5 & H6 & _). exists b, x, phi, p1, p2. exact (conj H1 (conj H2 (conj H3 (conj H4 (conj H5 H6))))). Qed.
Lemma C33_main : exists b x phi phi1 phi2, basis_new q inverse solve L = Ok b /\
  total_basis b L (fun y => y - x L 0%nat < 2 ^ 32 * bw) x phi /\ nodal L x phi /\
  smooth_basis b L (fun y => y - x L 0%nat < 2 ^ 32 * bw) phi phi1 phi2.
Proof. destruct C33_all as (b & x & phi & p1 & p2 & H1 & H2 & H3 & H4 & _). exists b, x, phi, p1, p2. auto. Qed.
End Basis.
