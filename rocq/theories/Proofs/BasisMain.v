(** C32-C34 and C48 from the lemmas on knots and splines. *)
From Coq Require Import List Reals ZArith Lra Lia Arith ClassicalEpsilon.
From Coquelicot Require Import Rcomplements.
From Verif Require Import Model.Base Model.Vectors Model.SparseGrid Model.BasisLevel Spec.GLMMSpec Spec.MatrixSpec
  Spec.SplineSpec Spec.NodalSpec Spec.GridSpec Proofs.ListLemmas Proofs.SumLemmas Proofs.KnotMain Proofs.SplineMain Proofs.LevelMain
  Proofs.QuantileMain Proofs.SparseMain Proofs.GLMMLemmas.
Import ListNotations.
Local Open Scope R_scope.

Lemma nth_map_seq {B} (f : nat -> B) d n i : (i < n)%nat -> nth i (map f (seq 0 n)) d = f i.
Proof.
  intros H. rewrite nth_indep with (d' := f 0%nat) by (rewrite map_length, seq_length; auto).
  rewrite map_nth. f_equal. now apply seq_nth.
Qed.

Lemma C32_knots_main q L l : normal_like q -> knots_fit q L -> (1 <= L)%nat -> (l <= L)%nat ->
  exists ks, findKnotsTotal q l L = Ok ks /\ length ks = (2 ^ (l + 1) - 1)%nat /\ strictly_increasing ks /\
    (forall i, (i < length ks)%nat ->
       Rabs (nth i ks 0 - (1 + INR L / 2) * q (INR (i + 1) / 2 ^ (l + 1))) < (1 + INR L / 2) * q (1 / 2 + / 2 ^ (L + 1)) / 10) /\
    find_knots q l L = Ok (map (fun j => nth (2 * j) ks 0) (seq 0 (2 ^ l))).
Proof.
  intros NL Fit HL Hl. exists (map (kn q L l) (seq 0 (numKnots l))).
  rewrite map_length, seq_length. split; [now apply knotsTotal_ok|]. split; [reflexivity|]. split; [|split].
  - intros i j H1 H2. rewrite map_length, seq_length in H2. rewrite !nth_map_seq by lia. now apply kn_lt.
  - intros i Hi. rewrite nth_map_seq by auto. unfold kn, kd, kid.
    replace (INR (i + 1) / 2 ^ (l + 1)) with (prob l i) by (unfold prob, eps, Rdiv; now rewrite (Nat.add_1_r i)).
    fold (level_scale L). fold (eps L). fold (unit_q q L). rewrite <- (bw_eq q L HL).
    pose proof (bw_pos q NL L HL) as Hb. pose proof (place_eq q NL L HL (prob l i)) as Pe.
    replace (level_scale L * q (prob l i)) with (place_of q L (prob l i) * bandwidth q L) by (rewrite <- Pe; field; lra).
    rewrite <- Rmult_minus_distr_r, Rabs_mult, (Rabs_pos_eq (bandwidth q L)) by lra.
    pose proof (truncate_near (place_of q L (prob l i))). nra.
  - rewrite (knots_ok q NL L HL Fit l Hl). f_equal. apply map_ext_in. intros j Hj. apply in_seq in Hj.
    rewrite nth_map_seq; auto. unfold numKnots. rewrite Nat.add_1_r. cbn [Nat.pow]. lia.
Qed.

Lemma level_new_fields q inverse solve l L b : level_new q inverse solve l L = Ok b ->
  ld_level b = l /\ find_knots q l L = Ok (ld_knots b) /\ find_gridIds q l L = Ok (ld_gridIds b) /\ ld_bandwidth b = bandwidth q L.
Proof.
  unfold level_new. destruct (find_knots q l L) as [ks| | |]; try discriminate. cbn [bind].
  destruct (find_gridIds q l L) as [g| | |]; try discriminate. cbn [bind].
  destruct (splineCoefficients q inverse solve l L) as [m| | |]; try discriminate. cbn [bind]. intros [= <-]. auto.
Qed.
Lemma C32_interval_main q inverse solve L l b ks x : normal_like q -> knots_fit q L -> (1 <= L)%nat -> (l <= L)%nat ->
  level_new q inverse solve l L = Ok b -> findKnotsTotal q l L = Ok ks ->
  (x <= nth 0 ks 0 -> findIntervalId b x = Ok 0%nat) /\
  (nth 0 ks 0 < x -> x - nth 0 ks 0 < 2 ^ 32 * bandwidth q L -> findIntervalId b x = Ok (count_upto ks x)) /\
  (2 ^ 32 * bandwidth q L <= x - nth 0 ks 0 -> findIntervalId b x = UB).
Proof.
  intros NL Fit HL Hl Hb Hk. apply level_new_fields in Hb. destruct Hb as (B1 & B2 & B3 & B4).
  rewrite (knotsTotal_ok q NL L HL Fit l Hl) in Hk. injection Hk as <-. pose proof (numKnots_pos l) as Hn.
  pose proof (bw_pos q NL L HL) as Hb.
  rewrite nth_map_seq by lia. split; [|split].
  - intros H. rewrite (interval_main q NL L HL Fit l Hl b B1 B2 B3 B4) by (assert (0 < 2 ^ 32 * bandwidth q L) by nra; lra).
    destruct (Rle_dec x (kn q L l 0)); [reflexivity|lra].
  - intros H H'. rewrite (interval_main q NL L HL Fit l Hl b B1 B2 B3 B4) by auto.
    destruct (Rle_dec x (kn q L l 0)); [lra|reflexivity].
  - intros H. unfold findIntervalId. rewrite (first_knot q NL L HL Fit l Hl b B1 B2). cbn [bind].
    destruct (Rlt_dec (kn q L l 0) x) as [|N]; [|assert (0 < 2 ^ 32 * bandwidth q L) by nra; lra].
    rewrite B4. unfold to_unsigned. set (v := (x - kn q L l 0) / bandwidth q L).
    assert (V : 2 ^ 32 <= v) by (unfold v; apply (proj1 (Rle_div_r (2 ^ 32) (x - kn q L l 0) (bandwidth q L) Hb)); exact H).
    destruct (truncate_nonneg v ltac:(lra)) as [[T1 T2] T3].
    destruct (Z.ltb_spec (truncate v) (2 ^ 32)) as [T|T]; [|now rewrite Bool.andb_false_r].
    exfalso. assert (T' : (truncate v + 1 <= 2 ^ 32)%Z) by lia. apply IZR_le in T'. rewrite plus_IZR in T'.
    replace (IZR (2 ^ 32)) with (2 ^ 32) in T' by exact (pow_IZR 2 32). lra.
Qed.

Lemma C33_grid_main q inverse solve L : is_normal_quantile q -> (1 <= L <= 25)%nat ->
  (forall d A, inverts inverse d A) -> solves_systems solve ->
  exists b x, basis_new q inverse solve L = Ok b /\
    (forall l j, (l <= L)%nat -> (j < 2 ^ l)%nat -> b_getKnot b l j = Ok (x l j) /\
       Rabs (x l j - (1 + INR L / 2) * q (INR (2 * j + 1) / 2 ^ (l + 1))) < (1 + INR L / 2) * q (1 / 2 + / 2 ^ (L + 1)) / 10) /\
    forall d f, exists g, grid_of f d b = Ok g /\
      forall ls ps, grid_point d L ls ps -> interpolate g (place x ls ps) b = Ok (f (place x ls ps)).
Proof.
  intros Hq HL Inv Sol. pose proof (normal_quantile_like q Hq) as NL. pose proof (normal_quantile_fit q L Hq HL) as Fit.
  destruct (C33_main q NL L ltac:(lia) Fit inverse solve (Inv 3%nat) (Inv 4%nat) Sol) as (b & x & phi & p1 & p2 & Eb & TB & ND & SB).
  exists b, x. split; auto. split.
  - intros l j Hl Hj. split; [now apply (tb_knot _ _ _ _ _ TB)|].
    destruct (C32_knots_main q L l NL Fit ltac:(lia) Hl) as (ks & E1 & E2 & E3 & E4 & E5).
    assert (Hj2 : (2 * j < length ks)%nat) by (rewrite E2, Nat.add_1_r; cbn [Nat.pow]; lia).
    replace (x l j) with (nth (2 * j) ks 0); [now apply E4|].
    pose proof (tb_knot _ _ _ _ _ TB l j Hl Hj) as T. revert T. clear - Eb E5 Hl Hj.
    unfold basis_new in Eb. unfold b_getKnot.
    destruct (mapM (fun l => level_new q inverse solve l L) (seq 0 (L + 1))) as [bs| | |] eqn:E; try discriminate. cbn [bind] in Eb.
    injection Eb as <-. cbn [b_levels].
    assert (G : forall m r bs, mapM (fun l => level_new q inverse solve l L) (seq m r) = Ok bs ->
      forall i, (i < r)%nat -> exists c, nth_error bs i = Some c /\ level_new q inverse solve (m + i) L = Ok c).
    { clear. intros m r. revert m. induction r as [|r IH]; intros m bs H i Hi; [lia|]. cbn [seq mapM] in H.
      destruct (level_new q inverse solve m L) as [c| | |] eqn:Ec; try discriminate. cbn [bind] in H.
      destruct (mapM _ (seq (S m) r)) as [cs| | |] eqn:Es; try discriminate. cbn [bind] in H. injection H as <-.
      destruct i as [|i]; [exists c; rewrite Nat.add_0_r; auto|]. destruct (IH _ _ Es i ltac:(lia)) as (c' & A & B). exists c'. split; auto.
      replace (m + S i)%nat with (S m + i)%nat by lia. auto. }
    destruct (G _ _ _ E l ltac:(lia)) as (c & A & B). unfold vec_get. rewrite (map_nth_error level_of _ _ A). cbn [bind level_of bl_knot].
    apply level_new_fields in B. destruct B as (_ & B & _). cbn [Nat.add] in B. rewrite E5 in B. injection B as B.
    unfold level_knot. rewrite <- B. unfold vec_get. rewrite (map_nth_error _ j (seq 0 (2 ^ l)) (d := j)).
    + intros [= <-]. reflexivity.
    + rewrite (nth_error_nth' _ 0%nat) by (rewrite seq_length; auto). now rewrite seq_nth.
  - intros d f. destruct (C16_main b L _ x phi d f TB ND) as (g & A & B & _). exists g. auto.
Qed.

Lemma C34_zero_main q inverse solve : basis_new q inverse solve 0 = UB.
Proof.
  unfold basis_new. cbn [Nat.add seq mapM]. unfold level_new, find_knots. cbn [Nat.pow seq mapM].
  unfold knot_id, quotient_to_int, bandwidth. cbn [Nat.ltb Nat.leb]. destruct (Req_EM_T 0 0); [reflexivity|lra].
Qed.
Lemma C34_large_main q inverse solve L : is_normal_quantile q -> (27 <= L)%nat -> level_new q inverse solve L L = UB.
Proof.
  intros Hq HL. pose proof (normal_quantile_like q Hq) as NL. pose proof (normal_quantile_wide q L Hq HL) as W.
  unfold level_new, find_knots. pose proof (pow2_ge1 L) as P1. destruct (2 ^ L)%nat as [|N] eqn:EN; [lia|]. cbn [seq mapM].
  replace ((2 * INR 0 + 1) / (2 * INR (S N))) with (eps L).
  2:{ pose proof (KnotMain.pow2_INR L) as E2. rewrite EN in E2. rewrite E2. unfold eps. rewrite pow_add. simpl (INR 0). rewrite pow_1. field. apply pow_nonzero. lra. }
  unfold knot_id, quotient_to_int. pose proof (bw_pos q NL L ltac:(lia)) as Hb.
  destruct (Req_EM_T (bandwidth q L) 0) as [|_]; [lra|].
  rewrite (place_eq q NL L ltac:(lia)). unfold to_int.
  pose proof (unit_pos q NL L ltac:(lia)) as U. pose proof (eps_pos L) as Ep.
  pose proof (eps_half L) as Eh.
  assert (Pl : place_of q L (eps L) <= - (2 ^ 31 + 1)).
  { unfold place_of, unit_q in *. fold (eps L) in W. rewrite (nl_odd q NL (eps L)) in W by (pose proof (eps_quarter L ltac:(lia)); lra).
    apply Rle_div_l; [auto|]. lra. }
  destruct (truncate_neg (place_of q L (eps L)) ltac:(lra)) as [[T1 T2] T3].
  destruct (Z.leb_spec (- 2 ^ 31) (truncate (place_of q L (eps L)))) as [T|T]; [|reflexivity].
  exfalso. apply IZR_le in T. rewrite opp_IZR in T. replace (IZR (2 ^ 31)) with (2 ^ 31) in T by exact (pow_IZR 2 31). lra.
Qed.
Lemma C34_defined_main q L l : is_normal_quantile q -> (1 <= L <= 25)%nat -> (l <= L)%nat ->
  exists k1 k2 k3, find_knots q l L = Ok k1 /\ find_gridIds q l L = Ok k2 /\ findKnotsTotal q l L = Ok k3.
Proof.
  intros Hq HL Hl. pose proof (normal_quantile_like q Hq) as NL. pose proof (normal_quantile_fit q L Hq HL) as Fit.
  destruct (gridIds_ok q NL L ltac:(lia) Fit l Hl) as (g & Eg & _).
  eexists _, g, _. split; [apply (knots_ok q NL L ltac:(lia) Fit l Hl)|]. split; auto. apply (knotsTotal_ok q NL L ltac:(lia) Fit l Hl).
Qed.

(** Routines as expected of Eigen exist. *)
Lemma list_entries (d : nat) (A B : rmat) : square d A -> square d B ->
  (forall i j, (i < d)%nat -> (j < d)%nat -> entry A i j = entry B i j) -> A = B.
Proof.
  intros [A1 A2] [B1 B2] E. apply (nth_ext A B [] []); [lia|]. intros i Hi. rewrite A1 in Hi.
  apply (nth_ext _ _ 0 0); [rewrite A2, B2; auto|]. intros j Hj. rewrite A2 in Hj by auto. now apply E.
Qed.
Lemma inverse_unique d A B C : are_inverse d A B -> are_inverse d A C -> B = C.
Proof.
  intros (_ & SB & HB) (_ & SC & HC). apply (list_entries d); auto. intros i j Hi Hj.
  (* B = B (A C) = (B A) C = C *)
  transitivity (sumR d (fun k => entry B i k * row_col d A C k j)).
  { rewrite (sumR_ext d _ (fun k => entry B i k * unit_entry k j)).
    - symmetry. apply (sumR_delta_r d j (fun k => entry B i k)); auto.
    - intros k Hk. now rewrite (proj1 (HC k j Hk Hj)). }
  transitivity (sumR d (fun k => row_col d B A i k * entry C k j)).
  2:{ rewrite (sumR_ext d _ (fun k => unit_entry i k * entry C k j)).
    - apply (sumR_delta d i (fun k => entry C k j)); auto.
    - intros k Hk. now rewrite (proj2 (HB i k Hi Hk)). }
  unfold row_col.
  rewrite (sumR_ext d (fun k => entry B i k * sumR d (fun k0 => entry A k k0 * entry C k0 j))
    (fun k => sumR d (fun m => entry B i k * entry A k m * entry C m j))).
  2:{ intros k Hk. rewrite <- sumR_scal. apply sumR_ext. intros; ring. }
  rewrite sumR_swap. apply sumR_ext. intros m Hm. rewrite <- sumR_scal_r. apply sumR_ext. intros; ring.
Qed.
Definition some_inverse (A : rmat) : rmat := epsilon (inhabits []) (fun B => exists d, are_inverse d A B).
Lemma some_inverse_inverts d A : inverts some_inverse d A.
Proof.
  intros B HB. unfold some_inverse.
  destruct (epsilon_spec (inhabits []) (fun B => exists d, are_inverse d A B)) as (d' & H'); [eauto|].
  assert (d = d') by (destruct HB as ((<- & _) & _); destruct H' as ((<- & _) & _); reflexivity). subst d'.
  eapply inverse_unique; eauto.
Qed.
Definition some_solve (A B : rmat) : rmat :=
  epsilon (inhabits []) (fun X => is_solution (length B) (length (nth 0 B [])) A B X).
Lemma some_solve_solves : solves_systems some_solve.
Proof.
  intros n p A B SA LB RB (X & HX). unfold some_solve. destruct n as [|n].
  - destruct B; [|discriminate]. destruct HX as (H & _).
    destruct (epsilon_spec (inhabits []) (fun X => is_solution 0 (length (nth 0 (@nil (list R)) [])) A [] X)) as (K & _).
    + exists []. split; [reflexivity|]. split; intros; lia.
    + split; [exact K|]. split; intros; lia.
  - pose proof (RB 0%nat ltac:(lia)) as E. rewrite LB, E.
    apply (epsilon_spec (inhabits []) (fun X => is_solution (S n) p A B X)). eauto.
Qed.
