(** The divergence with second derivatives. *)
From Coq Require Import List Arith Reals Lia Lra.
From Verif Require Import Model.Base Model.Vectors Model.IS Model.HOL Model.Divergence Spec.Numbers Spec.GLMMSpec Spec.MatrixSpec Spec.LaplaceSpec Spec.DivergenceSpec
  Proofs.GLMMLemmas Proofs.ISMain Proofs.HOLMain Proofs.SumLemmas Proofs.VectorLemmas Proofs.StoreMain Proofs.ConditionalMain Proofs.NormalMain Proofs.PosDef Proofs.DivergenceGap.
From Verif Require Proofs.BasisMain Proofs.LaplaceMain Proofs.GlmmMain.
Import ListNotations.
Local Open Scope R_scope.
Notation length := List.length.
Notation entry := MatrixSpec.entry.

Section Expect.
Variables (p : nat) (m : list R) (V : list (list R)) (E : (list R -> R) -> R).
Hypothesis HE : expectation p m V E.
Lemma E_scal a f : E (fun x => a * f x) = a * E f.
Proof. rewrite (e_same _ _ _ _ HE _ (fun x => a * f x + 0 * f x)) by (intros; ring). rewrite (e_linear _ _ _ _ HE). ring. Qed.
Lemma E_plus f g : E (fun x => f x + g x) = E f + E g.
Proof. rewrite (e_same _ _ _ _ HE _ (fun x => 1 * f x + 1 * g x)) by (intros; ring). rewrite (e_linear _ _ _ _ HE). ring. Qed.
Lemma E_const a : E (fun _ => a) = a.
Proof. rewrite (e_same _ _ _ _ HE _ (fun x => a * 1)) by (intros; ring). rewrite (E_scal a (fun _ => 1)), (e_one _ _ _ _ HE). ring. Qed.
Lemma E_sum n (f : nat -> list R -> R) : E (fun x => sumR n (fun i => f i x)) = sumR n (fun i => E (f i)).
Proof.
  revert f. induction n as [|n IH]; intros f; [exact (E_const 0)|]. rewrite sumR_S.
  rewrite (e_same _ _ _ _ HE _ (fun x => f 0%nat x + sumR n (fun i => f (S i) x))) by (intros; apply sumR_S).
  rewrite E_plus. f_equal. apply (IH (fun i => f (S i))).
Qed.
Lemma E_quad J a : E (fun x => quad p J a x) = sumR p (fun i => sumR p (fun j => entry J i j * (entry V i j + (nth i m 0 - nth i a 0) * (nth j m 0 - nth j a 0)))).
Proof.
  unfold quad. rewrite (E_sum p (fun i x => sumR p (fun j => (nth i x 0 - nth i a 0) * entry J i j * (nth j x 0 - nth j a 0)))). apply sumR_ext. intros i Hi.
  rewrite (E_sum p (fun j x => (nth i x 0 - nth i a 0) * entry J i j * (nth j x 0 - nth j a 0))). apply sumR_ext. intros j Hj.
  rewrite (e_same _ _ _ _ HE _ (fun x => entry J i j * ((nth i x 0 - nth i m 0) * (nth j x 0 - nth j m 0) + ((nth i m 0 - nth i a 0) * (nth j x 0) +
    ((nth j m 0 - nth j a 0) * (nth i x 0) + (nth i a 0 * nth j a 0 - nth i m 0 * nth j m 0)))))) by (intros; ring).
  rewrite E_scal. f_equal. rewrite E_plus, (e_cov _ _ _ _ HE) by assumption. f_equal. rewrite E_plus, E_scal, (e_mean _ _ _ _ HE) by assumption.
  rewrite E_plus, E_scal, (e_mean _ _ _ _ HE) by assumption. rewrite E_const. ring.
Qed.
Lemma cov_sym : symmetric p V.
Proof. intros i j Hi Hj. rewrite <- !(e_cov _ _ _ _ HE) by assumption. apply (e_same _ _ _ _ HE). intros; ring. Qed.
End Expect.

Section Main.
Variables (solve : rmat -> rmat) (log_modulus : rmat -> R) (p : nat) (m delta m2 : list R) (gamma V J K V2 : list (list R)).
Hypothesis HS : inverts p solve.
Hypothesis HL : log_determinants p log_modulus.
Hypothesis IJ : are_inverse p V J.
Hypothesis LD : length delta = p.
Hypothesis Lm : length m = p.
Hypothesis Gsq : square p gamma.
Hypothesis U : updated p J gamma K V2 delta m m2.
Hypothesis SV2 : symmetric p V2.

Lemma solve_V : solve V = J.
Proof. apply (BasisMain.inverse_unique p V); [apply (HS V J IJ)|exact IJ]. Qed.
Lemma msub_K : msub J gamma = K.
Proof.
  destruct IJ as (_ & SJ & _). destruct U as ((SK & _) & HK & _). assert (SM : square p (msub J gamma)) by now apply msub_square.
  apply (nth_ext _ _ [] []); [now rewrite (proj1 SM), (proj1 SK)|]. intros i Hi. rewrite (proj1 SM) in Hi.
  apply (nth_ext _ _ 0 0); [now rewrite (proj2 SM), (proj2 SK)|]. intros j Hj. rewrite (proj2 SM) in Hj by exact Hi.
  change (entry (msub J gamma) i j = entry K i j). rewrite (entry_msub p) by assumption. now rewrite HK.
Qed.
Lemma solve_K : solve (msub (solve V) gamma) = V2.
Proof. rewrite solve_V, msub_K. destruct U as (IK & _). apply (BasisMain.inverse_unique p K); [apply (HS K V2 IK)|exact IK]. Qed.

Definition step (i : nat) : R := sumR p (fun j => entry V2 i j * nth j delta 0).
Lemma diff_nth i : (i < p)%nat -> nth i (crossprod_vec p V2 delta) 0 = step i.
Proof.
  intros Hi. destruct U as ((_ & SV & _) & _). rewrite crossprod_vec_nth by (try assumption; apply SV). apply sumR_ext. intros j Hj.
  unfold at2. fold (entry V2 j i). now rewrite SV2.
Qed.
Lemma estim_main : estim_2_1 solve p m delta gamma V = m2.
Proof.
  unfold estim_2_1. rewrite solve_K. destruct U as (_ & _ & L2 & H2). assert (LC := crossprod_vec_length p V2 delta).
  apply (nth_ext _ _ 0 0); [rewrite (vadd_length _ _ p) by assumption; congruence|]. intros i Hi. rewrite (vadd_length _ _ p) in Hi by assumption.
  rewrite (nth_vadd _ _ _ p) by assumption. rewrite diff_nth, H2 by exact Hi. reflexivity.
Qed.
Lemma trace_inverse A B : are_inverse p A B -> sumR p (fun i => sumR p (fun j => entry A i j * entry B j i)) = INR p.
Proof.
  intros (_ & _ & H). rewrite (sumR_ext p _ (fun _ => 1)).
  - clear. induction p as [|n IH]; [reflexivity|]. rewrite sumR_S, IH, S_INR. ring.
  - intros i Hi. destruct (H i i Hi Hi) as [E _]. unfold row_col in E. rewrite E. unfold unit_entry. now rewrite Nat.eqb_refl.
Qed.
Lemma value_main : find_laplace_divergence_2 solve log_modulus p delta gamma V =
  1 / 2 * (log_modulus V - log_modulus V2 - INR p + sumR p (fun i => sumR p (fun j => entry J i j * entry V2 j i)) + sumR p (fun i => sumR p (fun j => entry J i j * (step i * step j)))).
Proof.
  unfold find_laplace_divergence_2. cbv zeta. rewrite solve_K, solve_V. destruct IJ as (SV & SJ & _). destruct U as ((SK & SW & _) & _).
  assert (LC := crossprod_vec_length p V2 delta). f_equal. f_equal; [f_equal|].
  - rewrite (vsum_sum _ p) by (unfold diag; now rewrite map_length, seq_length, mmul_length, (proj1 SJ)). apply sumR_ext. intros i Hi.
    rewrite diag_nth by (now rewrite mmul_length, (proj1 SJ)). rewrite (mmul_at _ _ _ _ _ p); [reflexivity|now rewrite (proj1 SJ)|exact Hi|now apply SJ|apply SW].
  - rewrite (vsum_sum _ p) by (rewrite vmul_length; rewrite ?crossprod_vec_length; reflexivity). rewrite sumR_swap. apply sumR_ext. intros i Hi.
    rewrite vmul_nth by (now rewrite !crossprod_vec_length). rewrite diff_nth by exact Hi. rewrite crossprod_vec_nth by (try exact Hi; try exact LC; apply SJ).
    rewrite <- sumR_scal. apply sumR_ext. intros j Hj. rewrite diff_nth by exact Hj. unfold at2. fold (entry J j i). ring.
Qed.
Lemma log_pos A : square p A -> symmetric p A -> positive_definite p A -> log_modulus A = ln (det p (entry A)).
Proof. intros SA YA PA. rewrite HL. f_equal. apply Rabs_right. left. now apply LaplaceMain.det_pos. Qed.

Lemma divergence_main E : symmetric p V -> positive_definite p V -> positive_definite p V2 -> expectation p m2 V2 E ->
  find_laplace_divergence_2 solve log_modulus p delta gamma V = divergence E (log_normal p V J m) (log_normal p V2 K m2).
Proof.
  intros SV PV PV2 HE. rewrite value_main. rewrite (log_pos V), (log_pos V2); try assumption; [|apply U|apply IJ].
  unfold divergence, log_normal. set (l1 := ln (det p (entry V))). set (l2 := ln (det p (entry V2))).
  rewrite (e_same _ _ _ _ HE _ (fun x => (l1 - l2) / 2 + ((- (1) / 2) * quad p K m2 x + (1 / 2) * quad p J m x))) by (intros; field).
  rewrite (E_plus p m2 V2 E HE (fun _ => (l1 - l2) / 2)), (E_const p m2 V2 E HE), (e_linear _ _ _ _ HE).
  rewrite !(E_quad p m2 V2 E HE).
  rewrite (sumR_ext p (fun i => sumR p (fun j => entry K i j * _)) (fun i => sumR p (fun j => entry K i j * entry V2 j i))).
  2: { intros i Hi. apply sumR_ext. intros j Hj. rewrite (SV2 i j) by assumption. ring. }
  rewrite (trace_inverse K V2) by apply U.
  rewrite (sumR_ext p (fun i => sumR p (fun j => entry J i j * (entry V2 i j + _))) (fun i => sumR p (fun j => entry J i j * entry V2 j i) + sumR p (fun j => entry J i j * (step i * step j)))).
  2: { intros i Hi. rewrite <- sumR_plus. apply sumR_ext. intros j Hj. destruct U as (_ & _ & _ & H2). rewrite (SV2 i j), !H2 by assumption. fold (step i) (step j). ring. }
  rewrite sumR_plus. field.
Qed.

Lemma K_step i : (i < p)%nat -> sumR p (fun j => entry K i j * step j) = nth i delta 0.
Proof.
  intros Hi. destruct U as ((_ & _ & H) & _). unfold step.
  rewrite (sumR_ext p _ (fun j => sumR p (fun k => entry K i j * entry V2 j k * nth k delta 0))).
  - rewrite sumR_swap. rewrite (sumR_ext p _ (fun k => unit_entry i k * nth k delta 0)); [now apply sumR_delta|].
    intros k Hk. rewrite sumR_scal_r. f_equal. apply (H i k Hi Hk).
  - intros j Hj. rewrite <- sumR_scal. apply sumR_ext. intros. ring.
Qed.
Lemma second_order_main : symmetric p K ->
  exists c, forall x, length x = p -> log_normal p V2 K m2 x = c + log_normal p V J m x + quadratic p delta gamma m x.
Proof.
  intros YK. exists (ln (det p (entry V)) / 2 - ln (det p (entry V2)) / 2 - sumR p (fun i => step i * nth i delta 0) / 2). intros x Lx.
  assert (A : quad p K m2 x = quad p J m x - quad p gamma m x - 2 * sumR p (fun i => nth i delta 0 * (nth i x 0 - nth i m 0)) + sumR p (fun i => step i * nth i delta 0)).
  { rewrite <- sumR_scal. unfold quad. rewrite <- !sumR_minus, <- sumR_plus.
    transitivity (sumR p (fun i => sumR p (fun j => (nth i x 0 - nth i m 0) * entry J i j * (nth j x 0 - nth j m 0)) - sumR p (fun j => (nth i x 0 - nth i m 0) * entry gamma i j * (nth j x 0 - nth j m 0))
      - (nth i x 0 - nth i m 0) * sumR p (fun j => entry K i j * step j) - step i * sumR p (fun j => entry K i j * (nth j x 0 - nth j m 0)) + step i * sumR p (fun j => entry K i j * step j))).
    - apply sumR_ext. intros i Hi. rewrite <- !sumR_scal, <- !sumR_minus, <- sumR_plus. apply sumR_ext. intros j Hj. destruct U as (_ & HK & _ & H2). rewrite HK, !H2 by assumption. fold (step i) (step j). ring.
    - rewrite !sumR_plus, !sumR_minus.
      rewrite (sumR_ext p (fun i => step i * sumR p (fun j => entry K i j * (nth j x 0 - nth j m 0))) (fun i => sumR p (fun j => entry K j i * step i * (nth j x 0 - nth j m 0)))).
      2: { intros i Hi. rewrite <- sumR_scal. apply sumR_ext. intros j Hj. rewrite (YK i j) by assumption. ring. }
      rewrite (sumR_swap p p (fun i j => entry K j i * step i * (nth j x 0 - nth j m 0))).
      rewrite (sumR_ext p (fun j => sumR p (fun i => entry K j i * step i * _)) (fun j => nth j delta 0 * (nth j x 0 - nth j m 0))).
      2: { intros j Hj. rewrite sumR_scal_r, K_step by exact Hj. reflexivity. }
      rewrite (sumR_ext p (fun i => (nth i x 0 - nth i m 0) * sumR p (fun j => entry K i j * step j)) (fun j => nth j delta 0 * (nth j x 0 - nth j m 0))).
      2: { intros j Hj. rewrite K_step by exact Hj. ring. }
      rewrite (sumR_ext p (fun i => step i * sumR p (fun j => entry K i j * step j)) (fun i => step i * nth i delta 0)).
      2: { intros j Hj. rewrite K_step by exact Hj. ring. }
      rewrite (sumR_scal p 2). ring. }
  unfold log_normal, quadratic. rewrite A. field.
Qed.
End Main.

Section Theorems.
Variables (solve : rmat -> rmat) (log_modulus : rmat -> R) (p : nat) (m delta m2 : list R) (gamma V J K V2 : list (list R)).
Hypothesis HS : inverts p solve.
Hypothesis HL : log_determinants p log_modulus.
Hypothesis IJ : are_inverse p V J.
Hypothesis LD : length delta = p.
Hypothesis Lm : length m = p.
Hypothesis Gsq : square p gamma.
Hypothesis U : updated p J gamma K V2 delta m m2.
Hypothesis YV : symmetric p V.
Hypothesis PV : positive_definite p V.
Hypothesis YV2 : symmetric p V2.
Hypothesis PV2 : positive_definite p V2.

Lemma K_pd : pd p (entry K).
Proof. apply (inverse_pd p V2 K); [apply LaplaceMain.are_inverse_sym, U|exact YV2|now apply pd_of]. Qed.
Lemma K_sym : symmetric p K.
Proof. apply (inverse_symmetric p V2 K); [apply LaplaceMain.are_inverse_sym, U|exact YV2]. Qed.
Lemma quad_bil A a x : quad p A a x = bil p (entry A) (fun i => nth i x 0 - nth i a 0) (fun i => nth i x 0 - nth i a 0).
Proof. reflexivity. Qed.
Lemma maximum_main : estim_2_1 solve p m delta gamma V = m2 /\
  (forall x, length x = p -> log_normal p V J m x + quadratic p delta gamma m x <= log_normal p V J m m2 + quadratic p delta gamma m m2) /\
  exists c, forall x, length x = p -> log_normal p V2 K m2 x = c + log_normal p V J m x + quadratic p delta gamma m x.
Proof.
  split; [exact (estim_main solve p m delta m2 gamma V J K V2 HS IJ LD Lm Gsq U YV2)|].
  destruct (second_order_main p m delta m2 gamma V J K V2 U K_sym) as (c & Hc). split; [|now exists c].
  intros x Lx. assert (L2 : length m2 = p) by apply U. pose proof (Hc x Lx) as E1. pose proof (Hc m2 L2) as E2.
  assert (A : log_normal p V2 K m2 x <= log_normal p V2 K m2 m2); [|lra].
  unfold log_normal. pose proof (pd_nonneg p (entry K) (fun i => nth i x 0 - nth i m2 0) K_pd) as Q. rewrite <- quad_bil in Q.
  assert (Z : quad p K m2 m2 = 0); [|lra]. unfold quad. rewrite (sumR_ext p _ (fun _ => 0)); [apply sumR_zero|]. intros i Hi.
  rewrite (sumR_ext p _ (fun _ => 0)); [apply sumR_zero|]. intros j Hj. ring.
Qed.
Lemma gap_value : find_laplace_divergence_2 solve log_modulus p delta gamma V = 1 / 2 * (gap p V V2 J + bil p (entry J) (step p delta V2) (step p delta V2)).
Proof.
  rewrite (value_main solve log_modulus p m delta m2 gamma V J K V2 HS IJ LD Gsq U YV2).
  rewrite (log_pos log_modulus p HL V), (log_pos log_modulus p HL V2) by (try assumption; try apply U; apply IJ). unfold gap. f_equal.
  unfold bil. rewrite (sumR_ext p (fun i => sumR p (fun j => entry J i j * (_ * _))) (fun i => sumR p (fun j => step p delta V2 i * entry J i j * step p delta V2 j))); [ring|].
  intros i Hi. apply sumR_ext. intros. ring.
Qed.
Lemma nonneg_main : 0 <= find_laplace_divergence_2 solve log_modulus p delta gamma V /\
  (find_laplace_divergence_2 solve log_modulus p delta gamma V = 0 <->
     (forall i, (i < p)%nat -> nth i delta 0 = 0) /\ forall i j, (i < p)%nat -> (j < p)%nat -> entry gamma i j = 0).
Proof.
  rewrite gap_value. assert (PJ : pd p (entry J)) by (apply (inverse_pd p V J IJ YV); now apply pd_of).
  pose proof (pd_nonneg p (entry J) (step p delta V2) PJ) as Q. assert (SV : square p V) by apply IJ. assert (SV2 : square p V2) by apply U.
  destruct (gap_nonneg p V V2 J SV YV PV SV2 YV2 PV2 IJ) as (G1 & G2). split; [lra|]. split.
  - intros Z. assert (Z1 : gap p V V2 J = 0) by lra. assert (Z2 : bil p (entry J) (step p delta V2) (step p delta V2) = 0) by lra. split.
    + assert (ST : forall j, (j < p)%nat -> step p delta V2 j = 0).
      { intros j Hj. destruct (nonzero_dec p (step p delta V2)) as [N|N]; [pose proof (PJ _ N); lra|now apply N]. }
      intros i Hi. rewrite <- (K_step p m delta m2 gamma J K V2 U i Hi). rewrite (sumR_ext p _ (fun _ => 0)); [apply sumR_zero|].
      intros j Hj. rewrite ST by exact Hj. ring.
    + specialize (G2 Z1). destruct U as (IK & HK & _). assert (KJ : K = J).
      { apply (BasisMain.inverse_unique p V); [|exact IJ]. apply (LaplaceMain.are_inverse_ext p V2); [now apply LaplaceMain.are_inverse_sym|exact SV|].
        intros i j Hi Hj. symmetry. now apply G2. }
      intros i j Hi Hj. pose proof (HK i j Hi Hj) as E. rewrite KJ in E. lra.
  - intros (D0 & G0). assert (VV : V2 = V).
    { destruct U as (IK & HK & _). apply (BasisMain.inverse_unique p J); [|now apply LaplaceMain.are_inverse_sym].
      apply (LaplaceMain.are_inverse_ext p K); [exact IK|apply IJ|]. intros i j Hi Hj. rewrite HK, G0 by assumption. ring. }
    rewrite VV. unfold gap. rewrite (trace_inverse p J V) by (now apply LaplaceMain.are_inverse_sym).
    assert (B : bil p (entry J) (step p delta V) (step p delta V) = 0).
    { unfold bil. rewrite (sumR_ext p _ (fun _ => 0)); [apply sumR_zero|]. intros i Hi. rewrite (sumR_ext p _ (fun _ => 0)); [apply sumR_zero|]. intros j Hj.
      assert (ST : step p delta V j = 0). { unfold step. rewrite (sumR_ext p _ (fun _ => 0)); [apply sumR_zero|]. intros k Hk. rewrite D0 by exact Hk. ring. } rewrite ST. ring. }
    rewrite B. field.
Qed.
End Theorems.

Lemma default_main solve log_modulus p delta gamma V J : inverts p solve -> are_inverse p V J -> symmetric p V -> length delta = p -> square p gamma ->
  (forall i j, (i < p)%nat -> (j < p)%nat -> entry gamma i j = 0) ->
  find_laplace_divergence_2 solve log_modulus p delta gamma V = find_laplace_divergence delta V.
Proof.
  intros HS IJ YV LD Gsq G0. set (m := repeat 0 p). set (m2 := map (fun i => nth i m 0 + sumR p (fun j => entry V i j * nth j delta 0)) (seq 0 p)).
  assert (U : updated p J gamma J V delta m m2).
  { split; [now apply LaplaceMain.are_inverse_sym|]. split; [intros i j Hi Hj; rewrite G0 by assumption; ring|]. split; [unfold m2; now rewrite map_length, seq_length|].
    intros i Hi. unfold m2. now rewrite nth_map_seq by exact Hi. }
  rewrite (value_main solve log_modulus p m delta m2 gamma V J J V HS IJ LD Gsq U YV). rewrite (trace_inverse p J V) by (now apply LaplaceMain.are_inverse_sym).
  rewrite (GlmmMain.divergence_sum p) by (try exact LD; apply IJ).
  rewrite (sumR_ext p (fun i => sumR p (fun j => entry J i j * _)) (fun i => sumR p (fun j => nth i delta 0 * entry V j i * nth j delta 0))).
  - field.
  - intros i Hi. rewrite (sumR_ext p _ (fun j => step p delta V i * (entry J i j * step p delta V j))) by (intros; ring). rewrite sumR_scal.
    rewrite (K_step p m delta m2 gamma J J V U i Hi). unfold step. rewrite <- sumR_scal_r. apply sumR_ext. intros j Hj. rewrite (YV i j) by assumption. ring.
Qed.

Lemma C77_divergence_main : forall solve log_modulus p m delta m2 gamma V J K V2 E, inverts p solve -> log_determinants p log_modulus ->
  are_inverse p V J -> symmetric p V -> positive_definite p V -> length delta = p -> square p gamma ->
  updated p J gamma K V2 delta m m2 -> symmetric p V2 -> positive_definite p V2 -> expectation p m2 V2 E ->
  find_laplace_divergence_2 solve log_modulus p delta gamma V = divergence E (log_normal p V J m) (log_normal p V2 K m2).
Proof. intros until E. intros HS HL IJ YV PV LD G U YV2 PV2 HE. exact (divergence_main solve log_modulus p m delta m2 gamma V J K V2 HS HL IJ LD G U YV2 E YV PV PV2 HE). Qed.
Lemma C77_second_order_main : forall solve p m delta m2 gamma V J K V2, inverts p solve -> are_inverse p V J -> length delta = p -> length m = p -> square p gamma ->
  updated p J gamma K V2 delta m m2 -> symmetric p V2 -> positive_definite p V2 ->
  estim_2_1 solve p m delta gamma V = m2 /\
  (forall x, length x = p -> log_normal p V J m x + quadratic p delta gamma m x <= log_normal p V J m m2 + quadratic p delta gamma m m2) /\
  exists c, forall x, length x = p -> log_normal p V2 K m2 x = c + log_normal p V J m x + quadratic p delta gamma m x.
Proof. intros until V2. intros HS IJ LD Lm G U YV2 PV2. exact (maximum_main solve p m delta m2 gamma V J K V2 HS IJ LD Lm G U YV2 PV2). Qed.
Lemma C77_distance_main : forall solve log_modulus p m delta m2 gamma V J K V2, inverts p solve -> log_determinants p log_modulus ->
  are_inverse p V J -> symmetric p V -> positive_definite p V -> length delta = p -> square p gamma ->
  updated p J gamma K V2 delta m m2 -> symmetric p V2 -> positive_definite p V2 ->
  0 <= find_laplace_divergence_2 solve log_modulus p delta gamma V /\
  (find_laplace_divergence_2 solve log_modulus p delta gamma V = 0 <->
     (forall i, (i < p)%nat -> nth i delta 0 = 0) /\ forall i j, (i < p)%nat -> (j < p)%nat -> entry gamma i j = 0).
Proof. intros until V2. intros HS HL IJ YV PV LD G U YV2 PV2. exact (nonneg_main solve log_modulus p m delta m2 gamma V J K V2 HS HL IJ LD G U YV PV YV2 PV2). Qed.
