(** C26: derivatives of an integrated belief. *)
From Coq Require Import List Reals Lia Lra Arith.
From Coquelicot Require Import Coquelicot.
From Verif Require Import Model.Base Model.Mixed Model.Vectors Model.Quadrature Model.IntegratedFunction
  Spec.Calculus Spec.RuleSpec Proofs.VectorLemmas Proofs.CalculusLemmas.
Import ListNotations.
Local Open Scope R_scope.

(** Folds over the nodes. *)
Section Folds.
Context {P : Type}.
Lemma grad_fold n x (t : P -> list R -> R) (u : P -> rvec) l A v : length x = n ->
  (forall p, is_gradient n (t p) x (u p)) -> is_gradient n A x v ->
  is_gradient n (fun y => fold_left (fun ret p => ret + t p y) l (A y)) x
    (fold_left (fun ret p => vadd ret (u p)) l v).
Proof.
  intros Lx Ht. revert A v. induction l as [|p l IH]; intros A v HA; cbn; [exact HA|].
  apply (IH (fun y => A y + t p y)). apply grad_plus; auto.
Qed.
Lemma fold_vadd_length n (u : P -> rvec) l v : (forall p, length (u p) = n) -> length v = n ->
  length (fold_left (fun ret p => vadd ret (u p)) l v) = n.
Proof.
  intros Hu. revert v. induction l as [|p l IH]; intros v Lv; cbn; auto. apply IH. apply vadd_length; auto.
Qed.
Lemma nth_fold_vadd n (u : P -> rvec) l v i : (forall p, length (u p) = n) -> length v = n -> (i < n)%nat ->
  nth i (fold_left (fun ret p => vadd ret (u p)) l v) 0
  = fold_left (fun ret p => ret + nth i (u p) 0) l (nth i v 0).
Proof.
  intros Hu Lv Hi. revert v Lv. induction l as [|p l IH]; intros v Lv; cbn; auto.
  rewrite IH by (apply vadd_length; auto). rewrite (nth_vadd i v (u p) n) by auto. reflexivity.
Qed.
Lemma fold_madd_length n (u : P -> rmat) l v : (forall p, length (u p) = n) -> length v = n ->
  length (fold_left (fun ret p => madd ret (u p)) l v) = n.
Proof.
  intros Hu. revert v. induction l as [|p l IH]; intros v Lv; cbn; auto. apply IH. apply map2_length; auto.
Qed.
Lemma nth_fold_madd n (u : P -> rmat) l v i : (forall p, length (u p) = n) -> length v = n -> (i < n)%nat ->
  nth i (fold_left (fun ret p => madd ret (u p)) l v) []
  = fold_left (fun ret p => vadd ret (nth i (u p) [])) l (nth i v []).
Proof.
  intros Hu Lv Hi. revert v Lv. induction l as [|p l IH]; intros v Lv; cbn; auto.
  rewrite IH by (apply map2_length; auto). rewrite (nth_madd i v (u p) n) by auto. reflexivity.
Qed.
Lemma fold_plus_ext (s t : P -> R) l a : (forall p, s p = t p) ->
  fold_left (fun ret p => ret + s p) l a = fold_left (fun ret p => ret + t p) l a.
Proof. intros E. revert a. induction l as [|p l IH]; intros a; cbn; auto. rewrite E. apply IH. Qed.
End Folds.

Lemma nth_mzero i d : (i < d)%nat -> nth i (mzero d) [] = repeat 0 d.
Proof.
  intros H. unfold mzero. assert (G : forall k, (i < k)%nat -> nth i (repeat (repeat 0 d) k) [] = repeat 0 d).
  { revert i H. induction i as [|i IH]; intros H [|k] Hk; cbn; try lia; auto. apply IH; lia. }
  apply G. exact H.
Qed.

Section Integrated.
Variable (i : ifun) (r : rule) (n : nat).
Notation o := (if_over i).
Notation lv := (if_logValueAtMean i).
Notation cross := (if_cross i).
Hypothesis Ho : (o <= n)%nat.
Hypothesis Hf : smooth (S n) (if_function i) (if_derivative i) (if_secondDerivative i).
Hypothesis Lc : length cross = n.
Hypothesis Lm : length (if_mean2 i) = n.
Hypothesis Hs : 0 < if_sigma i.
Hypothesis Hw : weighted r.

Let scale := sqrt 2 * if_sigma i.
Let a := vneg cross.
Let shift (p : R * R) := scale * fst p + (if_mean1 i + scalar cross (if_mean2 i)).
Let ext (p : R * R) (x : list R) := insert o x (shift p + scalar a x).
Let F (z : list R) := exp (if_function i z - lv).
Let q (p : R * R) := snd p * exp (fst p ^ 2).

Let La : length a = n.
Proof. unfold a. rewrite vneg_length. exact Lc. Qed.

Lemma ext_spec p x : length x = n ->
  extendArgument i x (scale * fst p + findConditionalMean i x) = ext p x.
Proof.
  intros Lx. unfold extendArgument, ext. f_equal. unfold findConditionalMean, shift, a.
  rewrite scalar_vneg. destruct (Nat.ltb_spec 0 (length x)) as [H|H].
  - rewrite vdot_scalar, (scalar_vsub x (if_mean2 i) _ n) by auto. ring.
  - assert (n = 0)%nat by lia. destruct x; [|cbn in H; lia]. destruct (if_mean2 i); [|cbn in Lm; lia].
    rewrite !scalar_nil_r. ring.
Qed.
Lemma ext_length p x : length x = n -> length (ext p x) = S n.
Proof. intros. unfold ext. rewrite insert_length. auto. Qed.

(** What the code adds up, node by node. *)
Let dterm (p : R * R) (x : list R) : rvec :=
  let derivative := vscale (F (ext p x)) (if_derivative i (ext p x)) in
  vadd (erase derivative o) (vscale (nth o derivative 0) (vneg cross)).
Let M (p : R * R) (x : list R) : rmat :=
  mscale (F (ext p x)) (madd (if_secondDerivative i (ext p x))
                             (outer (if_derivative i (ext p x)) (if_derivative i (ext p x)))).
Let hterm (p : R * R) (x : list R) : rmat :=
  let h12 := erase (nth o (M p x) []) o in
  let h11 := nth o (nth o (M p x) []) 0 in
  madd (msub (msub (getMatrixWithout o (M p x)) (outer cross h12)) (outer h12 cross))
       (mscale h11 (outer cross cross)).

Lemma g_length z : length z = S n -> length (if_derivative i z) = S n.
Proof. intros L. exact (proj1 (s_grad _ _ _ _ Hf z L)). Qed.
Lemma H_length z : length z = S n -> length (if_secondDerivative i z) = S n.
Proof. exact (s_rows _ _ _ _ Hf z). Qed.
Lemma Hrow_length z k : length z = S n -> (k < S n)%nat -> length (nth k (if_secondDerivative i z) []) = S n.
Proof. intros L Hk. exact (proj1 (s_hess _ _ _ _ Hf z k L Hk)). Qed.

Lemma F_grad z : length z = S n -> is_gradient (S n) F z (vscale (F z) (if_derivative i z)).
Proof.
  intros Lz. unfold F.
  apply (grad_comp (S n) (if_function i) z (if_derivative i z) (fun t => exp (t - lv))).
  - apply (s_grad _ _ _ _ Hf). exact Lz.
  - auto_derive; [auto|unfold Rminus; ring].
Qed.

Lemma dterm_length p x : length x = n -> length (dterm p x) = n.
Proof.
  intros Lx. unfold dterm. apply vadd_length.
  - apply erase_length; auto. rewrite vscale_length. apply g_length, ext_length, Lx.
  - rewrite vscale_length, vneg_length. exact Lc.
Qed.

Lemma node_grad p x : length x = n ->
  is_gradient n (fun y => snd p * F (ext p y) * exp (fst p ^ 2)) x (vscale (q p) (dterm p x)).
Proof.
  intros Lx. eapply grad_ext; [exact Lx| |reflexivity|].
  2:{ apply grad_scale. apply grad_affine; [exact Lx|exact La|exact Ho|]. apply F_grad. apply (ext_length p x Lx). }
  intros y Ly. unfold q, ext, a. ring.
Qed.

Lemma nth_dterm p x k : length x = n -> (k < n)%nat ->
  nth k (dterm p x) 0 = F (ext p x) * (nth (up o k) (if_derivative i (ext p x)) 0
                                       + - nth k cross 0 * nth o (if_derivative i (ext p x)) 0).
Proof.
  intros Lx Hk. unfold dterm. rewrite (nth_vadd k _ _ n); auto.
  - rewrite nth_erase, !nth_vscale, nth_vneg. ring.
  - apply erase_length; auto. rewrite vscale_length. apply g_length, ext_length, Lx.
  - rewrite vscale_length, vneg_length. exact Lc.
Qed.

Lemma M_length p x : length x = n -> length (M p x) = S n.
Proof.
  intros Lx. unfold M. rewrite mscale_length. apply map2_length.
  - apply H_length, ext_length, Lx.
  - unfold outer. rewrite map_length. apply g_length, ext_length, Lx.
Qed.
Lemma nth_M_row p x k : length x = n -> (k < S n)%nat ->
  nth k (M p x) [] = vscale (F (ext p x))
    (vadd (nth k (if_secondDerivative i (ext p x)) [])
          (vscale (nth k (if_derivative i (ext p x)) 0) (if_derivative i (ext p x)))).
Proof.
  intros Lx Hk. pose proof (ext_length p x Lx) as Lz. unfold M. rewrite nth_mscale.
  rewrite (nth_madd k _ _ (S n)); auto.
  - rewrite nth_outer; [reflexivity|]. rewrite g_length; auto.
  - apply H_length, Lz.
  - unfold outer. rewrite map_length. apply g_length, Lz.
Qed.
Lemma M_row_length p x k : length x = n -> (k < S n)%nat -> length (nth k (M p x) []) = S n.
Proof.
  intros Lx Hk. pose proof (ext_length p x Lx) as Lz. rewrite nth_M_row by auto.
  rewrite vscale_length. apply vadd_length; [apply Hrow_length; auto|]. rewrite vscale_length. apply g_length, Lz.
Qed.
Lemma nth_M p x k j : length x = n -> (k < S n)%nat -> (j < S n)%nat ->
  nth j (nth k (M p x) []) 0 = F (ext p x) * (nth j (nth k (if_secondDerivative i (ext p x)) []) 0
    + nth k (if_derivative i (ext p x)) 0 * nth j (if_derivative i (ext p x)) 0).
Proof.
  intros Lx Hk Hj. pose proof (ext_length p x Lx) as Lz. rewrite nth_M_row by auto.
  rewrite nth_vscale, (nth_vadd j _ _ (S n)); auto.
  - rewrite nth_vscale. reflexivity.
  - apply Hrow_length; auto.
  - rewrite vscale_length. apply g_length, Lz.
Qed.
Lemma M_sym p x k j : length x = n -> (k < S n)%nat -> (j < S n)%nat ->
  nth j (nth k (M p x) []) 0 = nth k (nth j (M p x) []) 0.
Proof.
  intros Lx Hk Hj. rewrite !nth_M by auto. rewrite (s_sym _ _ _ _ Hf _ k j); auto; [ring|].
  apply ext_length, Lx.
Qed.

Lemma h12_length p x : length x = n -> length (erase (nth o (M p x) []) o) = n.
Proof. intros Lx. apply erase_length; auto. apply M_row_length; auto. lia. Qed.
Lemma mwithout_length p x : length x = n -> length (getMatrixWithout o (M p x)) = n.
Proof. intros Lx. unfold getMatrixWithout. rewrite map_length. apply erase_length; auto. apply M_length, Lx. Qed.
Lemma mwithout_row_length p x k : length x = n -> (k < n)%nat ->
  length (nth k (getMatrixWithout o (M p x)) []) = n.
Proof.
  intros Lx Hk. rewrite (nth_mwithout o k _ n); auto; [|apply M_length, Lx].
  apply erase_length; auto. apply M_row_length; auto. apply up_lt; auto.
Qed.
Lemma outer_length u v : length (outer u v) = length u.
Proof. apply map_length. Qed.

Lemma hterm_length p x : length x = n -> length (hterm p x) = n.
Proof.
  intros Lx. unfold hterm. apply map2_length; [apply map2_length; [apply map2_length|]|].
  - apply mwithout_length, Lx.
  - rewrite outer_length. exact Lc.
  - rewrite outer_length. apply h12_length, Lx.
  - rewrite mscale_length, outer_length. exact Lc.
Qed.

Lemma hterm_row p x k : length x = n -> (k < n)%nat ->
  nth k (hterm p x) [] =
  vadd (vsub (vsub (erase (nth (up o k) (M p x) []) o) (vscale (nth k cross 0) (erase (nth o (M p x) []) o)))
             (vscale (nth k (erase (nth o (M p x) []) o) 0) cross))
       (vscale (nth o (nth o (M p x) []) 0) (vscale (nth k cross 0) cross)).
Proof.
  intros Lx Hk. pose proof (mwithout_length p x Lx). pose proof (h12_length p x Lx).
  unfold hterm.
  rewrite (nth_madd k _ _ n); auto.
  2:{ apply map2_length; [apply map2_length|]; rewrite ?outer_length; auto. }
  2:{ rewrite mscale_length, outer_length. exact Lc. }
  rewrite (nth_msub k _ _ n); auto.
  2:{ apply map2_length; rewrite ?outer_length; auto. }
  2:{ rewrite outer_length. auto. }
  rewrite (nth_msub k _ _ n); auto.
  2:{ rewrite outer_length. auto. }
  rewrite nth_mscale, !nth_outer by lia.
  rewrite (nth_mwithout o k _ n); auto. apply M_length, Lx.
Qed.
Lemma hterm_row_length p x k : length x = n -> (k < n)%nat -> length (nth k (hterm p x) []) = n.
Proof.
  intros Lx Hk. rewrite hterm_row by auto.
  apply vadd_length; [apply vsub_length; [apply vsub_length|]|]; rewrite ?vscale_length; auto.
  - apply erase_length; auto. apply M_row_length; auto. apply up_lt; auto.
  - apply h12_length, Lx.
Qed.
Lemma nth_hterm p x k j : length x = n -> (k < n)%nat -> (j < n)%nat ->
  nth j (nth k (hterm p x) []) 0 =
  nth (up o j) (nth (up o k) (M p x) []) 0 - nth k cross 0 * nth (up o j) (nth o (M p x) []) 0
  - nth (up o k) (nth o (M p x) []) 0 * nth j cross 0
  + nth o (nth o (M p x) []) 0 * (nth k cross 0 * nth j cross 0).
Proof.
  intros Lx Hk Hj. rewrite hterm_row by auto.
  assert (L1 : length (erase (nth (up o k) (M p x) []) o) = n).
  { apply erase_length; auto. apply M_row_length; auto. apply up_lt; auto. }
  pose proof (h12_length p x Lx) as L2.
  rewrite (nth_vadd j _ _ n); auto.
  2:{ repeat (apply vsub_length || rewrite vscale_length); auto. }
  2:{ rewrite !vscale_length. exact Lc. }
  rewrite (nth_vsub j _ _ n); auto.
  2:{ repeat (apply vsub_length || rewrite vscale_length); auto. }
  2:{ rewrite vscale_length; auto. }
  rewrite (nth_vsub j _ _ n); auto.
  2:{ rewrite vscale_length; auto. }
  rewrite !nth_vscale, !nth_erase. ring.
Qed.
Lemma hterm_sym p x k j : length x = n -> (k < n)%nat -> (j < n)%nat ->
  nth j (nth k (hterm p x) []) 0 = nth k (nth j (hterm p x) []) 0.
Proof.
  intros Lx Hk Hj. rewrite !nth_hterm by auto.
  rewrite (M_sym p x (up o k) (up o j)) by (auto; apply up_lt; auto). ring.
Qed.

Lemma node_hess p x k : length x = n -> (k < n)%nat ->
  is_gradient n (fun y => nth k (vscale (q p) (dterm p y)) 0) x (nth k (mscale (q p) (hterm p x)) []).
Proof.
  intros Lx Hk. pose proof (ext_length p x Lx) as Lz.
  assert (Hk' : (up o k < S n)%nat) by (apply up_lt; auto).
  set (gk := fun z => nth (up o k) (if_derivative i z) 0 + - nth k cross 0 * nth o (if_derivative i z) 0).
  assert (G1 : is_gradient (S n) gk (ext p x)
     (vadd (nth (up o k) (if_secondDerivative i (ext p x)) [])
           (vscale (- nth k cross 0) (nth o (if_secondDerivative i (ext p x)) [])))).
  { apply grad_plus; [apply (s_hess _ _ _ _ Hf); auto|]. apply grad_scale. apply (s_hess _ _ _ _ Hf); auto. lia. }
  pose proof (grad_mult (S n) _ _ _ _ _ Lz (F_grad _ Lz) G1) as G2.
  pose proof (grad_scale n _ _ _ (q p) (grad_affine n _ x _ o (shift p) a Lx La Ho G2)) as G3.
  eapply grad_ext; [exact Lx| | |exact G3].
  - intros y Ly. cbv beta. rewrite nth_vscale, nth_dterm by auto. reflexivity.
  - assert (K0 : (o < S n)%nat) by lia.
    pose proof (Hrow_length _ _ Lz Hk') as LH. pose proof (Hrow_length _ _ Lz K0) as LHo.
    pose proof (g_length _ Lz) as Lg.
    assert (LV : forall s t u, length (vadd (vscale s (vscale (F (ext p x)) (if_derivative i (ext p x))))
       (vscale t (vadd (nth (up o k) (if_secondDerivative i (ext p x)) [])
           (vscale u (nth o (if_secondDerivative i (ext p x)) []))))) = S n).
    { intros. repeat (apply vadd_length || rewrite vscale_length); auto. }
    apply (vec_ext _ _ n).
    + rewrite vscale_length. apply vadd_length; [apply erase_length; auto|rewrite vscale_length; auto].
    + rewrite nth_mscale, vscale_length. apply hterm_row_length; auto.
    + intros j Hj. assert (Hj' : (up o j < S n)%nat) by (apply up_lt; auto).
      rewrite nth_mscale, !nth_vscale, nth_hterm by auto.
      rewrite (nth_vadd j _ _ n); auto.
      2:{ apply erase_length; auto. }
      2:{ rewrite vscale_length; auto. }
      rewrite nth_erase, nth_vscale.
      unfold a. rewrite nth_vneg.
      assert (E : forall l, (l < S n)%nat ->
        nth l (vadd (vscale (gk (ext p x)) (vscale (F (ext p x)) (if_derivative i (ext p x))))
         (vscale (F (ext p x)) (vadd (nth (up o k) (if_secondDerivative i (ext p x)) [])
           (vscale (- nth k cross 0) (nth o (if_secondDerivative i (ext p x)) []))))) 0
        = nth l (nth (up o k) (M p x) []) 0 - nth k cross 0 * nth l (nth o (M p x) []) 0).
      { intros l Hl. rewrite !nth_M by auto. unfold gk.
        rewrite (nth_vadd l _ _ (S n)); auto.
        2:{ rewrite !vscale_length; auto. }
        2:{ rewrite vscale_length. apply vadd_length; rewrite ?vscale_length; auto. }
        rewrite !nth_vscale. rewrite (nth_vadd l _ _ (S n)); auto.
        2:{ rewrite vscale_length; auto. }
        rewrite nth_vscale. ring. }
      rewrite !E by auto. rewrite (M_sym p x (up o k) o) by auto. ring.
Qed.

(** The three integrals. *)
Let pts := combine (qr_nodes r) (qr_weights r).
Let I (x : list R) := scale * fold_left (fun ret p => ret + snd p * F (ext p x) * exp (fst p ^ 2)) pts 0.
Let I1 (x : list R) := vscale scale (fold_left (fun ret p => vadd ret (vscale (q p) (dterm p x))) pts (repeat 0 n)).
Let I2 (x : list R) := mscale scale (fold_left (fun ret p => madd ret (mscale (q p) (hterm p x))) pts (mzero n)).

Lemma fold_left_ext {A B} (f g : A -> B -> A) l s : (forall u p, f u p = g u p) -> fold_left f l s = fold_left g l s.
Proof. intros E. revert s. induction l as [|p l IH]; intros s; cbn; auto. rewrite E. apply IH. Qed.

Lemma I_code x : length x = n -> integrateNoLog i x (findConditionalMean i x) r = I x.
Proof.
  intros Lx. unfold integrateNoLog, integrate1D, I. fold scale. f_equal. apply fold_left_ext. intros u p.
  rewrite (ext_spec p x Lx). reflexivity.
Qed.
Lemma I1_code x : length x = n -> integrateDerivativeNoLog i x (findConditionalMean i x) r = I1 x.
Proof.
  intros Lx. unfold integrateDerivativeNoLog, integrate1DVector, I1. fold scale. rewrite Lx. f_equal.
  apply fold_left_ext. intros u p. cbv zeta. rewrite (ext_spec p x Lx). reflexivity.
Qed.
Lemma I2_code x : length x = n -> integrateSecondDerivativeNoLog i x (findConditionalMean i x) r = I2 x.
Proof.
  intros Lx. unfold integrateSecondDerivativeNoLog, integrate1DMatrix, I2. fold scale. rewrite Lx. f_equal.
  apply fold_left_ext. intros u p. cbv zeta. rewrite (ext_spec p x Lx). reflexivity.
Qed.

Lemma scale_pos : 0 < scale.
Proof. unfold scale. apply Rmult_lt_0_compat; [apply sqrt_lt_R0; lra|exact Hs]. Qed.

Lemma fold_pos (t : R * R -> R) : (forall p, 0 < t p) -> forall nodes ws : list R, length nodes = length ws ->
  List.Forall (fun w : R => 0 <= w) ws ->
  forall s, s <= fold_left (fun (ret : R) (p : R * R) => ret + snd p * t p * exp (fst p ^ 2)) (combine nodes ws) s /\
    (List.Exists (fun w : R => 0 < w) ws -> s < fold_left (fun (ret : R) (p : R * R) => ret + snd p * t p * exp (fst p ^ 2)) (combine nodes ws) s).
Proof.
  intros Ht. induction nodes as [|z nodes IH]; intros [|w ws] L W s; cbn in *; try discriminate.
  - split; [lra|]. intros E. inversion E.
  - inversion W; subst. injection L as L. destruct (IH ws L H2 (s + w * t (z, w) * exp (z * (z * 1)))) as [A B].
    pose proof (Ht (z, w)). pose proof (exp_pos (z * (z * 1))).
    assert (0 <= w * t (z, w) * exp (z * (z * 1))) by (repeat apply Rmult_le_pos; lra).
    split; [lra|]. intros E. inversion E; subst; [|specialize (B H5); lra].
    assert (0 < w * t (z, w) * exp (z * (z * 1))) by (repeat apply Rmult_lt_0_compat; lra). lra.
Qed.
Lemma I_pos x : 0 < I x.
Proof.
  unfold I. apply Rmult_lt_0_compat; [exact scale_pos|]. destruct Hw as [W1 [W2 W3]].
  apply (fold_pos (fun p => F (ext p x))); auto. intros p. apply exp_pos.
Qed.

Lemma I_grad x : length x = n -> is_gradient n I x (I1 x).
Proof.
  intros Lx. unfold I, I1. apply grad_scale.
  apply (grad_fold n x (fun p y => snd p * F (ext p y) * exp (fst p ^ 2)) (fun p => vscale (q p) (dterm p x)) pts
           (fun _ => 0)); auto.
  - intros p. apply node_grad, Lx.
  - apply grad_const.
Qed.
Lemma I1_length x : length x = n -> length (I1 x) = n.
Proof. intros Lx. exact (proj1 (I_grad x Lx)). Qed.
Lemma nth_I1 x k : length x = n -> (k < n)%nat ->
  nth k (I1 x) 0 = scale * fold_left (fun ret p => ret + nth k (vscale (q p) (dterm p x)) 0) pts 0.
Proof.
  intros Lx Hk. unfold I1. rewrite nth_vscale, (nth_fold_vadd n); auto.
  - rewrite nth_zeros. reflexivity.
  - intros p. rewrite vscale_length. apply dterm_length, Lx.
  - apply repeat_length.
Qed.
Lemma I2_length x : length x = n -> length (I2 x) = n.
Proof.
  intros Lx. unfold I2. rewrite mscale_length. apply fold_madd_length; [|apply repeat_length].
  intros p. rewrite mscale_length. apply hterm_length, Lx.
Qed.
Lemma nth_I2_row x k : length x = n -> (k < n)%nat ->
  nth k (I2 x) [] = vscale scale (fold_left (fun ret p => vadd ret (nth k (mscale (q p) (hterm p x)) [])) pts (repeat 0 n)).
Proof.
  intros Lx Hk. unfold I2. rewrite nth_mscale, (nth_fold_madd n); auto.
  - rewrite nth_mzero by auto. reflexivity.
  - intros p. rewrite mscale_length. apply hterm_length, Lx.
  - apply repeat_length.
Qed.
Lemma I1_hess x k : length x = n -> (k < n)%nat ->
  is_gradient n (fun y => nth k (I1 y) 0) x (nth k (I2 x) []).
Proof.
  intros Lx Hk.
  apply (grad_ext n (fun y => scale * fold_left (fun ret p => ret + nth k (vscale (q p) (dterm p y)) 0) pts 0) _ x
     (vscale scale (fold_left (fun ret p => vadd ret (nth k (mscale (q p) (hterm p x)) [])) pts (repeat 0 n)))); auto.
  - intros y Ly. symmetry. apply nth_I1; auto.
  - symmetry. apply nth_I2_row; auto.
  - apply grad_scale.
    apply (grad_fold n x (fun p y => nth k (vscale (q p) (dterm p y)) 0)
      (fun p => nth k (mscale (q p) (hterm p x)) []) pts (fun _ => 0)); auto; [|apply grad_const].
    intros p. apply node_hess; auto.
Qed.
Lemma I2_sym x k j : length x = n -> (k < n)%nat -> (j < n)%nat ->
  nth j (nth k (I2 x) []) 0 = nth k (nth j (I2 x) []) 0.
Proof.
  assert (LM : forall p k', length x = n -> (k' < n)%nat -> length (nth k' (mscale (q p) (hterm p x)) []) = n).
  { intros p k' Lx Hk'. rewrite nth_mscale, vscale_length. apply hterm_row_length; auto. }
  intros Lx Hk Hj. rewrite !nth_I2_row by auto. rewrite !nth_vscale. f_equal.
  rewrite !(nth_fold_vadd n); auto; try apply repeat_length. rewrite !nth_zeros.
  apply fold_plus_ext. intros p. rewrite !nth_mscale, !nth_vscale, hterm_sym by auto. reflexivity.
Qed.

Theorem C26_main : smooth n (if_evaluate i r) (if_evaluateDerivative i r) (if_evaluateSecondDerivative i r).
Proof.
  assert (Lo : forall x, length x = n -> length (outer (I1 x) (I1 x)) = n).
  { intros x Lx. rewrite outer_length. apply I1_length, Lx. }
  assert (Lrow : forall x k, length x = n -> (k < n)%nat -> length (nth k (I2 x) []) = n).
  { intros x k Lx Hk. exact (proj1 (I1_hess x k Lx Hk)). }
  assert (E2 : forall x, length x = n -> if_evaluateSecondDerivative i r x
              = mscale (/ I x ^ 2) (msub (mscale (I x) (I2 x)) (outer (I1 x) (I1 x)))).
  { intros x Lx. unfold if_evaluateSecondDerivative. rewrite I_code, I1_code, I2_code by auto. reflexivity. }
  assert (Erow : forall x k, length x = n -> (k < n)%nat -> nth k (if_evaluateSecondDerivative i r x) []
              = vscale (/ I x ^ 2) (vsub (vscale (I x) (nth k (I2 x) [])) (vscale (nth k (I1 x) 0) (I1 x)))).
  { intros x k Lx Hk. rewrite E2 by auto. rewrite nth_mscale, (nth_msub k _ _ n); auto.
    - rewrite nth_mscale, nth_outer; [reflexivity|]. rewrite I1_length; auto.
    - rewrite mscale_length. apply I2_length, Lx. }
  assert (Eent : forall x k j, length x = n -> (k < n)%nat -> (j < n)%nat ->
      nth j (nth k (if_evaluateSecondDerivative i r x) []) 0
      = / I x ^ 2 * (I x * nth j (nth k (I2 x) []) 0 - nth k (I1 x) 0 * nth j (I1 x) 0)).
  { intros x k j Lx Hk Hj. rewrite Erow by auto. rewrite nth_vscale, (nth_vsub j _ _ n); auto.
    - rewrite !nth_vscale. reflexivity.
    - rewrite vscale_length; auto.
    - rewrite vscale_length. apply I1_length, Lx. }
  split.
  - intros x Lx. unfold if_evaluateDerivative. rewrite I_code, I1_code by auto.
    apply (grad_ext n (fun y => ln (I y) + lv) _ x (vscale (/ I x) (I1 x))); auto.
    + intros y Ly. unfold if_evaluate. rewrite I_code by auto. reflexivity.
    + apply (grad_comp n I x (I1 x) (fun t => ln t + lv)); [apply I_grad, Lx|].
      pose proof (I_pos x). auto_derive; [auto|]. field. lra.
  - intros x Lx. rewrite E2 by auto. rewrite mscale_length. apply map2_length; auto.
    rewrite mscale_length. apply I2_length, Lx.
  - intros x k Lx Hk. pose proof (I_pos x) as P.
    pose proof (grad_comp n I x (I1 x) (fun t => / t) (- / I x ^ 2) (I_grad x Lx)
                          ltac:(auto_derive; [lra|field; lra])) as G.
    pose proof (grad_mult n _ _ x _ _ Lx G (I1_hess x k Lx Hk)) as G2.
    eapply grad_ext; [exact Lx| | |exact G2].
    + intros y Ly. cbv beta. unfold if_evaluateDerivative. rewrite I_code, I1_code by auto. rewrite nth_vscale. reflexivity.
    + apply (vec_ext _ _ n).
      * apply vadd_length; rewrite !vscale_length; auto. apply I1_length, Lx.
      * rewrite Erow by auto. rewrite vscale_length. apply vsub_length; rewrite vscale_length; auto. apply I1_length, Lx.
      * intros j Hj. rewrite Eent by auto. rewrite (nth_vadd j _ _ n); auto; rewrite ?vscale_length; auto.
        -- rewrite !nth_vscale. field. lra.
        -- apply I1_length, Lx.
  - intros x k j Lx Hk Hj. rewrite !Eent by auto. rewrite (I2_sym x k j) by auto. ring.
Qed.
End Integrated.
