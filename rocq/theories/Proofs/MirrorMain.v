(** C71: the loglikelihoods at the reported estimates. *)
From Coq Require Import String List Reals ZArith Bool Arith Lia Lra FunctionalExtensionality.
From Coquelicot Require Import Coquelicot.
From Verif Require Import Model.Base Model.Family Model.GLMM Model.SplitFrame Model.Frames Model.IS Model.HOL Spec.Numbers Spec.FamilySpec Spec.GLMMSpec Spec.SplitSpec Spec.FramesSpec Spec.ISSpec Spec.HOLSpec Spec.LfunSpec Spec.MirrorSpec
  Proofs.ListLemmas Proofs.GLMMLemmas Proofs.SumLemmas Proofs.SplitMain Proofs.AttachMain Proofs.SignMain Proofs.ISLinear Proofs.ISMain Proofs.ISEstimate Proofs.HOLMain.
From Verif Require Proofs.LaplaceMain.
From Verif Require Spec.MatrixSpec Spec.LaplaceSpec.
Import ListNotations.
Local Open Scope R_scope.

Lemma sign_nth s i : List.Forall sign s -> (i < length s)%nat -> nth i s 0 * nth i s 0 = 1.
Proof. intros F I. rewrite Forall_forall in F. destruct (F _ (nth_In s 0 I)) as [E|E]; rewrite E; lra. Qed.
Lemma flip_flip s u : length s = length u -> List.Forall sign s -> flip s (flip s u) = u.
Proof.
  intros L F. apply (nth_ext _ _ 0 0); [rewrite !flip_length; rewrite ?flip_length; auto|]. rewrite !flip_length by (rewrite ?flip_length; auto). intros i I.
  rewrite !flip_nth by (rewrite ?flip_length; auto). rewrite <- Rmult_assoc, sign_nth by (auto; lia). ring.
Qed.
Lemma phi_flip a x : sign a -> phi (a * x) = phi x.
Proof. intros [->| ->]; unfold phi; f_equal; f_equal; field. Qed.
Lemma std_normal_flip s : forall u, length s = length u -> List.Forall sign s -> std_normal (flip s u) = std_normal u.
Proof.
  induction s as [|a s IH]; intros [|x u] L F; try discriminate L; [reflexivity|]. inversion F; subst. unfold std_normal, flip. cbn [combine map fold_right fst snd].
  rewrite phi_flip by assumption. f_equal. apply IH; [now injection L|assumption].
Qed.

Section Mirror.
Context (fr : frame Rnum) (beta theta theta' s : list R) (MI : mirror fr beta theta theta' s).
Let d := cs_rows (fr_Zt _ fr).
Let n := length (cs_cols (fr_Zt _ fr)).

Lemma mirror_LZ i k : (i < d)%nat -> (k < n)%nat -> LZ (whole fr) theta' i k = nth i s 0 * LZ (whole fr) theta i k.
Proof.
  destruct MI as [LS [FS E]]. intros I K.
  set (v := fun c => map (fun j => if Nat.eqb j i then c else 0) (seq 0 d)).
  assert (LV : forall c, length (v c) = d) by (intros c; unfold v; now rewrite map_length, seq_length).
  assert (G : forall th c, eta (whole fr) beta th (v c) k = sumR (length beta) (fun j => at2 (gd_X _ (whole fr)) k j * nth j beta 0) + LZ (whole fr) th i k * c).
  { intros th c. unfold eta. f_equal. rewrite LV. rewrite (sumR_single d i); [|exact I|].
    - unfold v. rewrite nth_map_seq by exact I. now rewrite Nat.eqb_refl.
    - intros j J N. unfold v. rewrite nth_map_seq by exact J. rewrite (proj2 (Nat.eqb_neq j i) N). ring. }
  assert (FV : flip s (v 1) = v (nth i s 0)).
  { apply (nth_ext _ _ 0 0); [rewrite flip_length by (rewrite LV; exact LS); now rewrite !LV|].
    intros j J. rewrite flip_nth by (rewrite LV; exact LS). rewrite flip_length, LV in J by (rewrite LV; exact LS). unfold v. rewrite !nth_map_seq by exact J.
    destruct (Nat.eqb_spec j i) as [->|N]; ring. }
  pose proof (E (v 1) k (LV 1) K) as H. rewrite FV, !G in H. lra.
Qed.

Lemma mirror_density P w : joint_density P fr beta theta' w = joint_density P fr beta theta (fun e => sign_of s e * w e).
Proof.
  destruct MI as [LS [FS E]]. unfold joint_density.
  assert (LE : length (map w (effects fr)) = d) by (unfold effects; now rewrite !map_length, seq_length).
  assert (FE : map (fun e => sign_of s e * w e) (effects fr) = flip s (map w (effects fr))).
  { apply (nth_ext _ _ 0 0); [rewrite flip_length by (rewrite LE; exact LS); now rewrite !map_length|].
    intros i I. rewrite map_length in I. rewrite flip_nth by (rewrite LE; exact LS). unfold effects in *. rewrite map_length, seq_length in I.
    rewrite map_map, (nth_map_seq _ _ i) by exact I. rewrite map_map, (nth_map_seq _ _ i) by exact I. unfold sign_of. now rewrite Nat2Z.id. }
  rewrite FE. f_equal; [|f_equal; symmetry; apply std_normal_flip; [rewrite LE; exact LS|exact FS]].
  unfold factor_loglik. f_equal. apply map_ext_in. intros k K. apply in_seq in K. cbn [whole gd_numObs] in K. f_equal. f_equal. apply E; [exact LE|exact (proj2 K)].
Qed.
End Mirror.

(** * The second-order term *)
Lemma flipped_inverse d s H G H' : length s = d -> List.Forall sign s -> MatrixSpec.are_inverse d H G -> flipped d s H H' ->
  exists G', flipped d s G G' /\ MatrixSpec.are_inverse d H' G'.
Proof.
  intros LS FS [_ [_ I]] [SH' EH]. set (G' := map (fun i => map (fun j => nth i s 0 * nth j s 0 * at_ G i j) (seq 0 d)) (seq 0 d)).
  assert (FG : flipped d s G G').
  { split.
    - split; [unfold G'; now rewrite map_length, seq_length|]. intros i Hi. unfold G'. rewrite nth_map_seq by exact Hi. now rewrite map_length, seq_length.
    - intros i j Hi Hj. unfold G', MatrixSpec.entry at 1. rewrite nth_map_seq by exact Hi. now rewrite nth_map_seq by exact Hj. }
  exists G'. split; [exact FG|]. split; [exact SH'|]. split; [exact (proj1 FG)|]. destruct FG as [_ EG]. intros i j Hi Hj. destruct (I i j Hi Hj) as [I1 I2].
  assert (K : nth i s 0 * nth j s 0 * MatrixSpec.unit_entry i j = MatrixSpec.unit_entry i j).
  { unfold MatrixSpec.unit_entry. destruct (Nat.eqb_spec i j) as [->|N]; [|ring]. rewrite sign_nth by (auto; lia). ring. }
  split; rewrite <- K; [rewrite <- I1|rewrite <- I2]; unfold MatrixSpec.row_col; rewrite <- sumR_scal; apply sumR_ext; intros k Hk; rewrite EH, EG by assumption;
    pose proof (sign_nth s k FS ltac:(lia)) as Q; replace (nth i s 0 * nth j s 0) with (nth i s 0 * nth j s 0 * (nth k s 0 * nth k s 0)) by (rewrite Q; ring); ring.
Qed.

Theorem C71_second_order_main solve familyName linkName l n m r y w theta theta' beta s H H' G u_hat :
  make_family familyName linkName = Ok (mkFamily l Binomial) -> fits n m r y w theta beta -> length theta' = length theta ->
  mirror (frame_of m r) beta theta theta' s ->
  solves solve (nrandom m) n H -> solves solve (nrandom m) n H' -> MatrixSpec.are_inverse (nrandom m) H G -> length u_hat = nrandom m ->
  flipped (nrandom m) s H H' ->
  find_epsilon_1 solve familyName linkName (theta' ++ beta) m r (flip s u_hat) H' = find_epsilon_1 solve familyName linkName (theta ++ beta) m r u_hat H.
Proof.
  intros MF F LT MI SV SV' IV LU FH.
  assert (ND : nrandom m = cs_rows (fr_Zt _ (frame_of m r))) by (unfold nrandom; now rewrite (ft_re _ _ _ _ _ _ _ F)).
  assert (NN : n = length (cs_cols (fr_Zt _ (frame_of m r)))) by (symmetry; exact (pr_cols _ _ (pr_re _ _ (ft_proper _ _ _ _ _ _ _ F) r (ft_re _ _ _ _ _ _ _ F)))).
  pose proof MI as [LS [FS E]]. rewrite <- ND in LS.
  destruct (flipped_inverse _ s H G H' LS FS IV FH) as [G' [FG IV']].
  assert (F' : fits n m r y w theta' beta) by (destruct F; constructor; auto; congruence).
  rewrite (epsilon_eval l n m r y w theta beta F solve H G u_hat SV IV LU familyName linkName MF).
  rewrite (epsilon_eval l n m r y w theta' beta F' solve H' G' (flip s u_hat) SV' IV' ltac:(rewrite flip_length; congruence) familyName linkName MF).
  set (M := fun o p => sumR (nrandom m) (fun i => sumR (nrandom m) (fun j => LZ (whole (frame_of m r)) theta i o * at_ G i j * LZ (whole (frame_of m r)) theta j p))).
  assert (EM : forall o p, (o < n)%nat -> (p < n)%nat -> sumR (nrandom m) (fun i => sumR (nrandom m) (fun j => LZ (whole (frame_of m r)) theta' i o * at_ G' i j * LZ (whole (frame_of m r)) theta' j p)) = M o p).
  { intros o p O P. unfold M. apply sumR_ext. intros i I. apply sumR_ext. intros j J.
    rewrite !(mirror_LZ _ _ _ _ _ MI) by (rewrite <- ?ND, <- ?NN; assumption). rewrite (proj2 FG) by assumption.
    pose proof (sign_nth s i FS ltac:(lia)) as Qi. pose proof (sign_nth s j FS ltac:(lia)) as Qj.
    transitivity ((nth i s 0 * nth i s 0) * (nth j s 0 * nth j s 0) * (LZ (whole (frame_of m r)) theta i o * at_ G i j * LZ (whole (frame_of m r)) theta j p)); [ring|rewrite Qi, Qj; ring]. }
  assert (EP : forall k, (k < n)%nat -> predictor m beta theta' (flip s u_hat) k = predictor m beta theta u_hat k).
  { intros k K. unfold predictor. rewrite (ft_re _ _ _ _ _ _ _ F). rewrite E by (rewrite <- ?ND, <- ?NN; rewrite ?flip_length; congruence || assumption).
    rewrite flip_flip by (congruence || assumption). reflexivity. }
  do 2 f_equal; [f_equal|]; f_equal.
  - apply sumR_ext. intros o O. rewrite EP, EM by assumption. reflexivity.
  - apply sumR_ext. intros o O. apply sumR_ext. intros p P. rewrite !EP, EM by assumption. reflexivity.
  - apply sumR_ext. intros o O. apply sumR_ext. intros p P. rewrite !EP, !EM by assumption. reflexivity.
Qed.

(** * Importance sampling *)
Lemma det_flip n : forall Q s, (forall i, (i < n)%nat -> sign (s i)) -> LaplaceSpec.det n (fun i j => s i * s j * Q i j) = LaplaceSpec.det n Q.
Proof.
  induction n as [|n IH]; intros Q s S; [reflexivity|]. cbn [LaplaceSpec.det]. pose proof (S 0%nat ltac:(lia)) as S0.
  assert (Z : s 0%nat * s 0%nat = 1) by (destruct S0 as [->| ->]; lra). rewrite Z, Rmult_1_l. f_equal.
  rewrite <- (IH (fun i j => Q (Datatypes.S i) (Datatypes.S j) - Q (Datatypes.S i) 0%nat * Q 0%nat (Datatypes.S j) / Q 0%nat 0%nat) (fun i => s (Datatypes.S i))) by (intros i I; apply S; lia).
  apply LaplaceMain.det_ext. intros i j I J. unfold Rdiv.
  transitivity (s (Datatypes.S i) * s (Datatypes.S j) * Q (Datatypes.S i) (Datatypes.S j) - (s 0%nat * s 0%nat) * (s (Datatypes.S i) * s (Datatypes.S j) * Q (Datatypes.S i) 0%nat * Q 0%nat (Datatypes.S j) * / Q 0%nat 0%nat)); [ring|rewrite Z; ring].
Qed.

Lemma cholesky_unique d P A B : cholesky d P A -> cholesky d P B -> forall i j, (i < d)%nat -> (j < d)%nat -> at_ A i j = at_ B i j.
Proof.
  intros [_ [_ [UA [PA EA]]]] [_ [_ [UB [PB EB]]]].
  assert (G : forall i, (i < d)%nat -> (forall k j, (k < i)%nat -> (j < d)%nat -> at_ A k j = at_ B k j) -> forall j, (j < d)%nat -> at_ A i j = at_ B i j).
  { intros i I IH j J.
    assert (SP : forall f, (forall k, (k < d)%nat -> (i < k)%nat -> f k = 0) -> sumR d f = sumR i f + f i).
    { intros f Z. replace d with (S i + (d - S i))%nat by lia. rewrite sumR_add, sumR_last. rewrite (sumR_nil (d - S i)); [ring|]. intros k K. apply Z; lia. }
    assert (QA : forall j, (j < d)%nat -> sumR i (fun k => at_ A k i * at_ A k j) + at_ A i i * at_ A i j = at_ P i j).
    { intros j' J'. rewrite <- EA by assumption. symmetry. apply (SP (fun k => at_ A k i * at_ A k j')). intros k K KI. rewrite UA by assumption. ring. }
    assert (QB : forall j, (j < d)%nat -> sumR i (fun k => at_ B k i * at_ B k j) + at_ B i i * at_ B i j = at_ P i j).
    { intros j' J'. rewrite <- EB by assumption. symmetry. apply (SP (fun k => at_ B k i * at_ B k j')). intros k K KI. rewrite UB by assumption. ring. }
    assert (QQ : forall j, (j < d)%nat -> at_ A i i * at_ A i j = at_ B i i * at_ B i j).
    { intros j' J'. pose proof (QA j' J') as H1. pose proof (QB j' J') as H2.
      assert (H3 : sumR i (fun k => at_ A k i * at_ A k j') = sumR i (fun k => at_ B k i * at_ B k j')) by (apply sumR_ext; intros k K; now rewrite !IH). lra. }
    assert (DI : at_ A i i = at_ B i i).
    { pose proof (QQ i I) as H. pose proof (PA i I). pose proof (PB i I). apply Rsqr_inj; unfold Rsqr; lra. }
    pose proof (QQ j J) as H. rewrite DI in H. pose proof (PB i I). apply Rmult_eq_reg_l with (at_ B i i); lra. }
  intros i. induction (lt_wf i) as [i _ IH]. intros j I J. apply G; auto. intros k j' K J'. apply IH; lia || assumption.
Qed.

Lemma inverse_unique d A B A' B' : MatrixSpec.are_inverse d A B -> MatrixSpec.are_inverse d A' B' ->
  (forall i j, (i < d)%nat -> (j < d)%nat -> at_ A i j = at_ A' i j) -> forall i j, (i < d)%nat -> (j < d)%nat -> at_ B i j = at_ B' i j.
Proof.
  intros [_ [_ I]] [_ [_ I']] E i j Hi Hj.
  transitivity (sumR d (fun k => at_ B i k * MatrixSpec.unit_entry k j)); [symmetry; exact (sumR_delta_r d j (fun k => at_ B i k) Hj)|].
  transitivity (sumR d (fun k => at_ B i k * sumR d (fun l => at_ A k l * at_ B' l j))).
  { apply sumR_ext. intros k K. f_equal. rewrite <- (proj1 (I' k j K Hj)). unfold MatrixSpec.row_col. apply sumR_ext. intros l L. now rewrite E. }
  transitivity (sumR d (fun l => sumR d (fun k => at_ B i k * at_ A k l) * at_ B' l j)).
  { transitivity (sumR d (fun k => sumR d (fun l => at_ B i k * at_ A k l * at_ B' l j))); [apply sumR_ext; intros k K; rewrite <- sumR_scal; apply sumR_ext; intros; ring|].
    rewrite sumR_swap. apply sumR_ext. intros l L. now rewrite <- sumR_scal_r. }
  transitivity (sumR d (fun l => MatrixSpec.unit_entry i l * at_ B' l j)); [|exact (sumR_delta d i (fun l => at_ B' l j) Hi)].
  apply sumR_ext. intros l L. f_equal. exact (proj2 (I i l Hi L)).
Qed.

Lemma flip_rows_sized s d k z : length s = d -> sized d k z -> sized d k (flip_rows s z).
Proof.
  intros LS [LZ ZR]. split; [unfold flip_rows; rewrite map_length, combine_length; lia|]. intros row Hr. unfold flip_rows in Hr. apply in_map_iff in Hr.
  destruct Hr as [[a b] [<- Hin]]. rewrite map_length. apply ZR. exact (in_combine_r _ _ _ _ Hin).
Qed.
Lemma flip_rows_draw s z j k : length s = length z -> (forall row, In row z -> length row = k) -> (j < k)%nat -> draw (flip_rows s z) j = flip s (draw z j).
Proof.
  revert z. induction s as [|a s IH]; intros [|row z] L R J; try discriminate L; [reflexivity|]. unfold draw, flip_rows, flip. cbn [combine map fst snd]. f_equal.
  - assert (Q : (j < length row)%nat) by (rewrite (R row); [exact J|now left]). rewrite (nth_map' _ _ j 0 0) by exact Q. reflexivity.
  - apply IH; [now injection L| |exact J]. intros. apply R. now right.
Qed.

Theorem C71_importance_main fam n m r y w theta theta' beta s chol solve determinant mean P P' z nIS :
  fits n m r y w theta beta -> length theta' = length theta -> mirror (frame_of m r) beta theta theta' s ->
  routines (nrandom m) chol solve determinant P -> routines (nrandom m) chol solve determinant P' -> flipped (nrandom m) s P P' ->
  length mean = nrandom m -> (0 < nIS)%nat -> sized (nrandom m) nIS z ->
  lfun_IS chol solve determinant z nIS fam m r (theta' ++ beta) (flip s mean) P' =
  lfun_IS chol solve determinant (flip_rows s z) nIS fam m r (theta ++ beta) mean P.
Proof.
  intros F LT MI RO RO' FP LM NI SZ.
  assert (ND : nrandom m = cs_rows (fr_Zt _ (frame_of m r))) by (unfold nrandom; now rewrite (ft_re _ _ _ _ _ _ _ F)).
  assert (NN : n = length (cs_cols (fr_Zt _ (frame_of m r)))) by (symmetry; exact (pr_cols _ _ (pr_re _ _ (ft_proper _ _ _ _ _ _ _ F) r (ft_re _ _ _ _ _ _ _ F)))).
  pose proof MI as [LS [FS E]]. rewrite <- ND in LS. set (d := nrandom m) in *.
  assert (F' : fits n m r y w theta' beta) by (destruct F; constructor; auto; congruence).
  assert (LF : length (flip s mean) = d) by (rewrite flip_length; congruence).
  unfold lfun_IS.
  rewrite (weights_eq chol solve determinant d (flip s mean) P' RO' LF z nIS _ (log_joint n (linkinv fam) (dev_resids fam) m y w beta theta') SZ)
    by (intros u SU; exact (C44_integrand_main fam n m r y w theta' beta F' nIS u NI SU)).
  rewrite (weights_eq chol solve determinant d mean P RO LM (flip_rows s z) nIS _ (log_joint n (linkinv fam) (dev_resids fam) m y w beta theta) (flip_rows_sized s d nIS z LS SZ))
    by (intros u SU; exact (C44_integrand_main fam n m r y w theta beta F nIS u NI SU)).
  cbn [bind].
  match goal with |- Ok (ln (mean_of (map _ ?a)) + _) = Ok (ln (mean_of (map _ ?b)) + _) => assert (EW : a = b); [|now rewrite EW] end.
  apply map_ext_in. intros j J. apply in_seq in J.
  assert (LD : length (draw z j) = d) by (rewrite draw_length; exact (proj1 SZ)).
  rewrite (flip_rows_draw s z j nIS) by (try (rewrite LS; symmetry; exact (proj1 SZ)); try exact (proj2 SZ); lia).
  rewrite !(G_T chol solve determinant d) by (assumption || (rewrite flip_length; congruence)).
  assert (DD : determinant P' = determinant P).
  { rewrite (ro_det _ _ _ _ _ RO), (ro_det _ _ _ _ _ RO'). rewrite <- (Rabs_right (LaplaceSpec.det d (at_ P'))), <- (Rabs_right (LaplaceSpec.det d (at_ P))).
    - pose proof (det_flip d (at_ P) (fun i => nth i s 0)) as Q. rewrite <- Q by (intros i Hi; rewrite Forall_forall in FS; apply FS; apply nth_In; lia).
      f_equal. apply LaplaceMain.det_ext. exact (proj2 FP).
    - left. exact (det_positive d P _ (ro_chol _ _ _ _ _ RO)).
    - left. exact (det_positive d P' _ (ro_chol _ _ _ _ _ RO')). }
  rewrite DD, std_normal_flip by (congruence || assumption). f_equal.
  (* the images *)
  set (C := solve (chol P)). set (C' := solve (chol P')).
  assert (EC : forall i j, (i < d)%nat -> (j < d)%nat -> at_ C' i j = nth i s 0 * nth j s 0 * at_ C i j).
  { destruct (flipped_inverse d s (chol P) C (map (fun i => map (fun j => nth i s 0 * nth j s 0 * at_ (chol P) i j) (seq 0 d)) (seq 0 d)) LS FS (ro_solve _ _ _ _ _ RO)) as [C2 [FC IC]].
    { split; [split; [now rewrite map_length, seq_length|intros i Hi; rewrite nth_map_seq by exact Hi; now rewrite map_length, seq_length]|].
      intros i k Hi Hk. unfold MatrixSpec.entry at 1. rewrite nth_map_seq by exact Hi. now rewrite nth_map_seq by exact Hk. }
    intros i k Hi Hk. rewrite <- (proj2 FC) by assumption. refine (inverse_unique d _ _ _ _ (ro_solve _ _ _ _ _ RO') IC _ i k Hi Hk).
    apply (cholesky_unique d P' _ _ (ro_chol _ _ _ _ _ RO')).
    destruct (ro_chol _ _ _ _ _ RO) as [SP [SR [U [PO EQ]]]]. destruct (ro_chol _ _ _ _ _ RO') as [SP' _].
    assert (EN : forall a b, (a < d)%nat -> (b < d)%nat -> at_ (map (fun i => map (fun j => nth i s 0 * nth j s 0 * at_ (chol P) i j) (seq 0 d)) (seq 0 d)) a b = nth a s 0 * nth b s 0 * at_ (chol P) a b).
    { intros a b Ha Hb. unfold MatrixSpec.entry at 1. rewrite nth_map_seq by exact Ha. now rewrite nth_map_seq by exact Hb. }
    split; [exact SP'|]. split; [split; [now rewrite map_length, seq_length|intros a Ha; rewrite nth_map_seq by exact Ha; now rewrite map_length, seq_length]|].
    split; [|split].
    - intros a b Ha Hb. rewrite EN by lia. rewrite U by assumption. ring.
    - intros a Ha. rewrite EN by assumption. rewrite sign_nth by (auto; lia). rewrite Rmult_1_l. now apply PO.
    - intros a b Ha Hb. rewrite (proj2 FP) by assumption. rewrite <- EQ by assumption. rewrite <- sumR_scal. apply sumR_ext. intros c Hc. rewrite !EN by assumption.
      pose proof (sign_nth s c FS ltac:(lia)) as Q. replace (nth a s 0 * nth b s 0) with (nth a s 0 * nth b s 0 * (nth c s 0 * nth c s 0)) by (rewrite Q; ring). ring. }
  assert (ET : image d C' (flip s mean) (draw z j) = flip s (image d C mean (flip s (draw z j)))).
  { apply (nth_ext _ _ 0 0); [rewrite flip_length; rewrite !image_length; auto|]. rewrite image_length. intros a Ha. rewrite flip_nth by (rewrite image_length; exact LS).
    unfold image. rewrite !nth_map_seq by exact Ha. rewrite flip_nth by congruence. rewrite Rmult_plus_distr_l. f_equal. rewrite <- sumR_scal. apply sumR_ext. intros b Hb.
    rewrite EC, flip_nth by (assumption || congruence). ring. }
  rewrite ET. set (x := image d C mean (flip s (draw z j))). assert (LX : length x = d) by apply image_length.
  unfold log_joint. f_equal; [|f_equal; apply std_normal_flip; [congruence|exact FS]]. f_equal. f_equal. apply sumR_ext. intros k K. f_equal. f_equal.
  unfold predictor. rewrite (ft_re _ _ _ _ _ _ _ F). rewrite E by (rewrite <- ?NN; rewrite ?flip_length; congruence || assumption). rewrite flip_flip by (congruence || assumption). reflexivity.
Qed.
