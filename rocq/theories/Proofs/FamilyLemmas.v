From Coq Require Import List Reals ZArith Lia Lra Arith.
From Coquelicot Require Import Coquelicot.
From Verif Require Import Model.Base Model.Family Spec.Numbers Spec.FamilySpec Proofs.CheckedLemmas.
Import ListNotations.
Local Open Scope R_scope.

Lemma zip2_spec {A B C} (f : A -> B -> C) a b : length a = length b ->
  exists r, zip2 f a b = Ok r /\ length r = length a /\
  forall i da db d, (i < length a)%nat -> nth i r d = f (nth i a da) (nth i b db).
Proof.
  revert b. induction a as [|x a IH]; intros [|y b] H; simpl in H; try discriminate.
  - exists []. split; [reflexivity|]. split; [reflexivity|]. simpl. intros; lia.
  - injection H as H. destruct (IH b H) as [r [E [L K]]]. exists (f x y :: r).
    split; [simpl; rewrite E; reflexivity|]. split; [simpl; congruence|].
    intros [|i] da db d Hi; simpl; [reflexivity|]. apply K. simpl in Hi; lia.
Qed.

Lemma zip3_spec {A B C D} (f : A -> B -> C -> D) a b c :
  length a = length b -> length a = length c ->
  exists r, zip3 f a b c = Ok r /\ length r = length a /\
  forall i da db dc d, (i < length a)%nat -> nth i r d = f (nth i a da) (nth i b db) (nth i c dc).
Proof.
  intros H1 H2. unfold zip3.
  destruct (zip2_spec pair a b H1) as [ab [E [L K]]]. rewrite E. cbn [bind].
  destruct (zip2_spec (fun p z => f (fst p) (snd p) z) ab c) as [r [E' [L' K']]]; [congruence|].
  exists r. split; [exact E'|]. split; [congruence|]. intros i da db dc d Hi.
  rewrite (K' i (da, db) dc d) by lia. rewrite (K i da db (da,db)) by lia. reflexivity.
Qed.

Lemma zip3_cons {A B C D} (f : A -> B -> C -> D) x y z a b c :
  zip3 f (x :: a) (y :: b) (z :: c) = (r <- zip3 f a b c ;; Ok (f x y z :: r)).
Proof.
  unfold zip3. cbn [zip2 bind]. destruct (zip2 pair a b); cbn [bind zip2]; reflexivity.
Qed.

Lemma zip2_Ok_length {A B C} (f : A -> B -> C) a b r : zip2 f a b = Ok r -> length a = length b.
Proof.
  revert b r. induction a as [|x a IH]; intros [|y b] r H; simpl in H; try discriminate; auto.
  destruct (zip2 f a b) eqn:E; simpl in H; try discriminate. simpl. f_equal. eapply IH; eauto.
Qed.

(** * Differentiating along a chain of formulas *)
Lemma derive_chain (U : R -> Prop) (F : nat -> R -> R) n :
  (forall t, U t -> locally t U) ->
  (forall k t, (k < n)%nat -> U t -> is_derive (F k) t (F (S k) t)) ->
  forall x, U x -> is_derive_n (F 0%nat) n x (F n x).
Proof.
  intros Ho Hd.
  assert (K : forall k t, (k <= n)%nat -> U t -> Derive_n (F 0%nat) k t = F k t).
  { induction k; intros t Hk Ht; [reflexivity|].
    change (Derive (Derive_n (F 0%nat) k) t = F (S k) t).
    rewrite (Derive_ext_loc _ (F k)).
    - apply is_derive_unique. apply Hd; [lia|exact Ht].
    - generalize (Ho t Ht). apply filter_imp. intros u Hu. apply IHk; [lia|exact Hu]. }
  intros x Hx. destruct n as [|n]; [reflexivity|].
  change (is_derive (Derive_n (F 0%nat) n) x (F (S n) x)).
  apply (is_derive_ext_loc (F n)).
  - generalize (Ho x Hx). apply filter_imp. intros u Hu. symmetry. apply K; [lia|exact Hu].
  - apply Hd; [lia|exact Hx].
Qed.

Lemma locally_between (f : R -> R) a b t d : is_derive f t d -> a < f t < b ->
  locally t (fun u => a < f u < b).
Proof.
  intros Hd [Ha Hb].
  assert (C : continuous f t) by (apply (ex_derive_continuous f); exists d; exact Hd).
  assert (L : locally (f t) (fun y => a < y /\ y < b)).
  { apply filter_and; [apply (open_gt a (f t) Ha)|apply (open_lt b (f t) Hb)]. }
  exact (C _ L).
Qed.

Lemma is_derive_R_ext (f g : R -> R) t (l l' : R) : (forall u, f u = g u) -> l = l' ->
  is_derive f t l -> is_derive g t l'.
Proof. intros H -> D. eapply is_derive_ext; [|exact D]. exact H. Qed.

(** * The chain rule up to order four, in the form of src/Family.cpp *)
Section FaaDiBruno.
Variables m0 m1 m2 m3 m4 b0 b1 b2 b3 b4 : R -> R.
Variables lo hi : R.
Hypothesis D0 : forall t, is_derive m0 t (m1 t).
Hypothesis D1 : forall t, is_derive m1 t (m2 t).
Hypothesis D2 : forall t, is_derive m2 t (m3 t).
Hypothesis D3 : forall t, is_derive m3 t (m4 t).
Hypothesis B0 : forall u, lo < u < hi -> is_derive b0 u (b1 u).
Hypothesis B1 : forall u, lo < u < hi -> is_derive b1 u (b2 u).
Hypothesis B2 : forall u, lo < u < hi -> is_derive b2 u (b3 u).
Hypothesis B3 : forall u, lo < u < hi -> is_derive b3 u (b4 u).

Definition faa (k : nat) (t : R) : R :=
  match k with
  | 0%nat => b0 (m0 t)
  | 1%nat => m1 t * b1 (m0 t)
  | 2%nat => m1 t ^ 2 * b2 (m0 t) + m2 t * b1 (m0 t)
  | 3%nat => m1 t ^ 3 * b3 (m0 t) + 3 * m1 t * m2 t * b2 (m0 t) + m3 t * b1 (m0 t)
  | _ => m1 t ^ 4 * b4 (m0 t) + 6 * m1 t ^ 2 * m2 t * b3 (m0 t)
         + (4 * m1 t * m3 t + 3 * m2 t ^ 2) * b2 (m0 t) + m4 t * b1 (m0 t)
  end.

Lemma faa_chain t k : (k < 4)%nat -> lo < m0 t < hi -> is_derive (faa k) t (faa (S k) t).
Proof.
  intros Hk Ht.
  assert (C0 : is_derive (fun t => b0 (m0 t)) t (m1 t * b1 (m0 t)))
    by (apply (is_derive_comp b0 m0); [apply B0, Ht|apply D0]).
  assert (C1 : is_derive (fun t => b1 (m0 t)) t (m1 t * b2 (m0 t)))
    by (apply (is_derive_comp b1 m0); [apply B1, Ht|apply D0]).
  assert (C2 : is_derive (fun t => b2 (m0 t)) t (m1 t * b3 (m0 t)))
    by (apply (is_derive_comp b2 m0); [apply B2, Ht|apply D0]).
  assert (C3 : is_derive (fun t => b3 (m0 t)) t (m1 t * b4 (m0 t)))
    by (apply (is_derive_comp b3 m0); [apply B3, Ht|apply D0]).
  pose proof (D0 t) as E0. pose proof (D1 t) as E1. pose proof (D2 t) as E2. pose proof (D3 t) as E3.
  set (c1 := fun t => b1 (m0 t)) in *. set (c2 := fun t => b2 (m0 t)) in *.
  set (c3 := fun t => b3 (m0 t)) in *.
  destruct k as [|[|[|[|k]]]]; [| | | |lia]; cbn [faa].
  - exact C0.
  - apply (is_derive_R_ext (fun t => m1 t * c1 t) _ t (m2 t * c1 t + m1 t * (m1 t * b2 (m0 t))));
      [reflexivity|unfold c1; ring|].
    apply (is_derive_mult m1 c1); [exact E1|exact C1|exact Rmult_comm].
  - apply (is_derive_R_ext (fun t => m1 t * (m1 t * c2 t) + m2 t * c1 t) _ t
            ((m2 t * (m1 t * c2 t) + m1 t * (m2 t * c2 t + m1 t * (m1 t * b3 (m0 t))))
             + (m3 t * c1 t + m2 t * (m1 t * b2 (m0 t)))));
      [intros u; unfold faa, c1, c2; ring|unfold c1, c2; ring|].
    apply (is_derive_plus (fun t => m1 t * (m1 t * c2 t)) (fun t => m2 t * c1 t)).
    + apply (is_derive_mult m1 (fun t => m1 t * c2 t)); [exact E1| |exact Rmult_comm].
      apply (is_derive_mult m1 c2); [exact E1|exact C2|exact Rmult_comm].
    + apply (is_derive_mult m2 c1); [exact E2|exact C1|exact Rmult_comm].
  - apply (is_derive_R_ext
            (fun t => (m1 t * (m1 t * (m1 t * c3 t)) + 3 * (m1 t * (m2 t * c2 t))) + m3 t * c1 t) _ t
            (((m2 t * (m1 t * (m1 t * c3 t)) +
               m1 t * (m2 t * (m1 t * c3 t) + m1 t * (m2 t * c3 t + m1 t * (m1 t * b4 (m0 t)))))
              + 3 * (m2 t * (m2 t * c2 t) + m1 t * (m3 t * c2 t + m2 t * (m1 t * b3 (m0 t)))))
             + (m4 t * c1 t + m3 t * (m1 t * b2 (m0 t)))));
      [intros u; unfold faa, c1, c2, c3; ring|unfold c1, c2, c3; ring|].
    apply (is_derive_plus (fun t => m1 t * (m1 t * (m1 t * c3 t)) + 3 * (m1 t * (m2 t * c2 t)))
                          (fun t => m3 t * c1 t)).
    + apply (is_derive_plus (fun t => m1 t * (m1 t * (m1 t * c3 t))) (fun t => 3 * (m1 t * (m2 t * c2 t)))).
      * apply (is_derive_mult m1 (fun t => m1 t * (m1 t * c3 t))); [exact E1| |exact Rmult_comm].
        apply (is_derive_mult m1 (fun t => m1 t * c3 t)); [exact E1| |exact Rmult_comm].
        apply (is_derive_mult m1 c3); [exact E1|exact C3|exact Rmult_comm].
      * apply (is_derive_scal (fun t => m1 t * (m2 t * c2 t)) t 3).
        apply (is_derive_mult m1 (fun t => m2 t * c2 t)); [exact E1| |exact Rmult_comm].
        apply (is_derive_mult m2 c2); [exact E2|exact C2|exact Rmult_comm].
    + apply (is_derive_mult m3 c1); [exact E3|exact C1|exact Rmult_comm].
Qed.
End FaaDiBruno.

(** * Powers *)
Lemma pow2 x : powerRZ x 2 = x ^ 2. Proof. reflexivity. Qed.
Lemma pow3 x : powerRZ x 3 = x ^ 3. Proof. reflexivity. Qed.
Lemma pow4 x : powerRZ x 4 = x ^ 4. Proof. reflexivity. Qed.
Lemma pow5 x : powerRZ x 5 = x ^ 5. Proof. reflexivity. Qed.
Lemma powm2 x : powerRZ x (-2) = / x ^ 2. Proof. reflexivity. Qed.
Lemma powm3 x : powerRZ x (-3) = / x ^ 3. Proof. reflexivity. Qed.
Lemma powm4 x : powerRZ x (-4) = / x ^ 4. Proof. reflexivity. Qed.

(** * Binomial derivatives *)
Lemma binomial_D0 y w u : 0 < u < 1 ->
  is_derive (fun m => binomial1 Rnum m y w) u (binomial_d1 Rnum u y w).
Proof.
  intros H. unfold binomial1, binomial_d1; cbn [nZ nadd nsub nmul ndiv nopp nlog npow Rnum N].
  auto_derive; [lra|]. field. lra.
Qed.
Lemma binomial_D1 y w u : 0 < u < 1 ->
  is_derive (fun m => binomial_d1 Rnum m y w) u (binomial_d2 Rnum u y w).
Proof.
  intros H. unfold binomial_d2, binomial_d1; cbn [nZ nadd nsub nmul ndiv nopp nlog npow Rnum N].
  rewrite !powm2. auto_derive; [lra|]. field. lra.
Qed.
Lemma binomial_D2 y w u : 0 < u < 1 ->
  is_derive (fun m => binomial_d2 Rnum m y w) u (binomial_d3 Rnum u y w).
Proof.
  intros H. unfold binomial_d2, binomial_d3; cbn [nZ nadd nsub nmul ndiv nopp nlog npow Rnum N].
  rewrite !powm3.
  apply (is_derive_R_ext (fun m => - w * (y * / m ^ 2 + (1 - y) * / (1 - m) ^ 2)) _ u
           (2 * w * (y * / u ^ 3 - (1 - y) * / (1 - u) ^ 3)));
    [intros; rewrite !powm2; reflexivity|reflexivity|].
  auto_derive.
  - split; [|split; [|exact I]];
    match goal with |- ?a <> 0 => first [change (u ^ 2 <> 0)|change (u ^ 3 <> 0)
      |change ((1 + - u) ^ 2 <> 0)|change ((1 + - u) ^ 3 <> 0)] end; apply pow_nonzero; lra.
  - field. lra.
Qed.
Lemma binomial_D3 y w u : 0 < u < 1 ->
  is_derive (fun m => binomial_d3 Rnum m y w) u (binomial_d4 Rnum u y w).
Proof.
  intros H. unfold binomial_d4, binomial_d3; cbn [nZ nadd nsub nmul ndiv nopp nlog npow Rnum N].
  rewrite !powm4.
  apply (is_derive_R_ext (fun m => 2 * w * (y * / m ^ 3 - (1 - y) * / (1 - m) ^ 3)) _ u
           (-6 * w * (y * / u ^ 4 + (1 - y) * / (1 - u) ^ 4)));
    [intros; rewrite !powm3; reflexivity|reflexivity|].
  auto_derive.
  - split; [|split; [|exact I]];
    match goal with |- ?a <> 0 => first [change (u ^ 2 <> 0)|change (u ^ 3 <> 0)
      |change ((1 + - u) ^ 2 <> 0)|change ((1 + - u) ^ 3 <> 0)] end; apply pow_nonzero; lra.
  - field. lra.
Qed.

(** * The logit link *)
Lemma logit_D0 t : is_derive (logit_mean Rnum) t (logit_mean1 Rnum t).
Proof.
  unfold logit_mean, logit_mean1; cbn [nZ nadd nsub nmul ndiv nopp nexp npow Rnum N].
  rewrite pow2. pose proof (exp_pos t). auto_derive; [lra|]. field. lra.
Qed.
Lemma logit_D1 t : is_derive (logit_mean1 Rnum) t (logit_mean2 Rnum t).
Proof.
  apply (is_derive_R_ext (fun e => exp e / (1 + exp e) ^ 2) _ t
          (exp t * (1 - exp t) / (1 + exp t) ^ 3)); [intros; reflexivity|reflexivity|].
  pose proof (exp_pos t). auto_derive; [change ((1 + exp t) ^ 2 <> 0); apply pow_nonzero; lra|]. field. lra.
Qed.
Lemma exp_2 t : exp (2 * t) = exp t * exp t.
Proof. rewrite <- exp_plus. f_equal; ring. Qed.
Lemma exp_3 t : exp (3 * t) = exp t * exp t * exp t.
Proof. rewrite <- !exp_plus. f_equal; ring. Qed.
Lemma logit_D2 t : is_derive (logit_mean2 Rnum) t (logit_mean3 Rnum t).
Proof.
  apply (is_derive_R_ext (fun e => exp e * (1 - exp e) / (1 + exp e) ^ 3) _ t
          (exp t * (-4 * exp t + exp (2 * t) + 1) / (1 + exp t) ^ 4)); [intros; reflexivity|reflexivity|].
  rewrite exp_2.
  pose proof (exp_pos t). auto_derive; [change ((1 + exp t) ^ 3 <> 0); apply pow_nonzero; lra|]. field. lra.
Qed.
Lemma logit_D3 t : is_derive (logit_mean3 Rnum) t (logit_mean4 Rnum t).
Proof.
  apply (is_derive_R_ext (fun e => exp e * (-4 * exp e + exp e * exp e + 1) / (1 + exp e) ^ 4) _ t
          (- exp t * (11 * exp t - 11 * exp (2 * t) + exp (3 * t) - 1) / (1 + exp t) ^ 5));
    [intros; rewrite <- exp_2; reflexivity|reflexivity|].
  rewrite exp_2, exp_3.
  pose proof (exp_pos t). auto_derive; [change ((1 + exp t) ^ 4 <> 0); apply pow_nonzero; lra|]. field. lra.
Qed.
Lemma logit_logistic t : logit_mean Rnum t = logistic t.
Proof.
  unfold logit_mean, logistic; cbn [nZ nadd nsub nmul ndiv nopp nexp npow Rnum N].
  rewrite exp_Ropp. pose proof (exp_pos t). field. lra.
Qed.

(** * The probit link *)
Lemma sqrt_2PI_pos : 0 < sqrt (2 * PI).
Proof. apply sqrt_lt_R0. pose proof PI_RGT_0. lra. Qed.
Lemma normal_pdf_kernel t : normal_pdf t = gaussian_kernel t / sqrt (2 * PI).
Proof. unfold normal_pdf, gaussian_kernel. f_equal. f_equal. simpl. field. Qed.
Lemma normal_pdf_derive t : is_derive normal_pdf t (- t * normal_pdf t).
Proof.
  unfold normal_pdf. pose proof sqrt_2PI_pos. auto_derive; [lra|].
  replace (- (t * (t * 1)) * / 2) with (- t ^ 2 / 2) by (simpl; unfold Rdiv; ring). field. lra.
Qed.
Lemma normal_pdf_continuous t : continuous normal_pdf t.
Proof. apply (ex_derive_continuous normal_pdf). eexists. apply normal_pdf_derive. Qed.
Lemma probit_D0 t : is_derive (probit_mean Rnum) t (probit_mean1 Rnum t).
Proof.
  unfold probit_mean, probit_mean1; cbn [ncdf npdf Rnum N]. unfold normal_cdf.
  replace (normal_pdf t) with (0 + normal_pdf t) by ring.
  apply (is_derive_plus (fun _ => 1/2) (fun t => RInt normal_pdf 0 t)).
  - apply (is_derive_const (1 / 2) t).
  - apply (is_derive_RInt normal_pdf _ 0).
    + apply filter_forall. intros x. apply (RInt_correct normal_pdf 0 x). apply (ex_RInt_continuous normal_pdf).
      intros z _. apply normal_pdf_continuous.
    + apply normal_pdf_continuous.
Qed.
Lemma pdf_mult (p q : R -> R) t d : is_derive p t d -> (d - t * p t) = q t ->
  is_derive (fun t => p t * normal_pdf t) t (q t * normal_pdf t).
Proof.
  intros H E. apply (is_derive_R_ext (fun t => p t * normal_pdf t) _ t
    (d * normal_pdf t + p t * (- t * normal_pdf t))); [reflexivity|rewrite <- E; ring|].
  apply (is_derive_mult p normal_pdf); [exact H|apply normal_pdf_derive|exact Rmult_comm].
Qed.
Lemma probit_D1 t : is_derive (probit_mean1 Rnum) t (probit_mean2 Rnum t).
Proof. apply normal_pdf_derive. Qed.
Lemma probit_D2 t : is_derive (probit_mean2 Rnum) t (probit_mean3 Rnum t).
Proof.
  unfold probit_mean2, probit_mean3; cbn [nZ nadd nsub nmul ndiv nopp npdf npow Rnum N].
  apply (pdf_mult (fun t => - t) (fun t => powerRZ t 2 - 1) t (-1)); [auto_derive; auto; ring|].
  rewrite pow2; ring.
Qed.
Lemma probit_D3 t : is_derive (probit_mean3 Rnum) t (probit_mean4 Rnum t).
Proof.
  unfold probit_mean4, probit_mean3; cbn [nZ nadd nsub nmul ndiv nopp npdf npow Rnum N].
  apply (pdf_mult (fun t => powerRZ t 2 - 1) (fun t => - powerRZ t 3 + 3 * t) t (2 * t)).
  - apply (is_derive_R_ext (fun t => t ^ 2 - 1) _ t (2 * t)); [reflexivity|reflexivity|].
    auto_derive; auto; ring.
  - rewrite pow2, pow3; ring.
Qed.
Lemma normal_cdf_unique P : is_normal_cdf P -> forall t, normal_cdf t = P t.
Proof.
  intros [H0 HD] t.
  assert (D : forall u, is_derive (fun x => normal_cdf x - P x) u 0).
  { intros u. replace 0 with (normal_pdf u - gaussian_kernel u / sqrt (2 * PI))
      by (rewrite normal_pdf_kernel; ring).
    apply (is_derive_minus normal_cdf P); [apply probit_D0|apply HD]. }
  assert (E : normal_cdf t - P t = normal_cdf 0 - P 0).
  { destruct (Req_dec t 0) as [->|Hn]; [reflexivity|].
    destruct (MVT_gen (fun x => normal_cdf x - P x) 0 t (fun _ => 0)) as [c [_ Hc]].
    - intros x _. apply D.
    - intros x _. apply continuity_pt_filterlim.
      apply (ex_derive_continuous (fun x => normal_cdf x - P x)). eexists. apply D.
    - lra. }
  unfold normal_cdf at 2 in E. rewrite RInt_point in E. unfold zero in E; simpl in E. lra.
Qed.
Lemma normal_cdf_is : is_normal_cdf normal_cdf.
Proof.
  split.
  - unfold normal_cdf. rewrite RInt_point. unfold zero; simpl. ring.
  - intros t. rewrite <- normal_pdf_kernel. apply probit_D0.
Qed.
