(** C26, C27, C28, C47: normal approximations and integrated beliefs, in exact
    arithmetic. *)
From Coq Require Import List Reals Lia Lra Arith Bool.
From Verif Require Import Model.Base Model.Mixed Model.Vectors Model.MultiNormal Model.Quadrature
  Model.IntegratedFunction Spec.GLMMSpec Spec.MatrixSpec Spec.Calculus Spec.RuleSpec
  Proofs.NormalMain Proofs.IntegratedMain Proofs.ConditionalMain Proofs.NormalCases.
Import ListNotations.
Local Open Scope R_scope.

(** C26: whatever the centring and the scaling are, if the gradient and the
    Hessian of the integrand are right then so are those of the integrated
    function, as derivatives of the value that it reports. *)
Theorem C26_derivatives : forall (i : ifun) (r : rule) (n : nat),
  (if_over i <= n)%nat -> smooth (S n) (if_function i) (if_derivative i) (if_secondDerivative i) ->
  length (if_cross i) = n -> length (if_mean2 i) = n -> 0 < if_sigma i -> weighted r ->
  smooth n (if_evaluate i r) (if_evaluateDerivative i r) (if_evaluateSecondDerivative i r).
Proof. exact C26_main. Qed.
Print Assumptions C26_derivatives.

(** The same for what the constructor makes of a normal approximation. *)
Theorem C26_constructed : forall inverse determinant isProper o n f g H normal,
  let N := initializeNormal inverse determinant isProper normal in
  (o <= n)%nat -> length (no_mean N) = S n ->
  are_inverse (S n) (no_precision N) (no_variance N) -> symmetric (S n) (no_precision N) ->
  0 < entry (no_precision N) o o -> inverts inverse n (getMatrixWithout o (no_variance N)) ->
  let i := make_ifun inverse determinant isProper o f g H normal in
  forall r, smooth (S n) f g H -> weighted r ->
  smooth n (if_evaluate i r) (if_evaluateDerivative i r) (if_evaluateSecondDerivative i r).
Proof. exact C26_made. Qed.
Print Assumptions C26_constructed.

Example C26_case : smooth 1 (if_evaluate tilted_integrated two_points)
  (if_evaluateDerivative tilted_integrated two_points) (if_evaluateSecondDerivative tilted_integrated two_points).
Proof. exact tilted_integrated_smooth. Qed.

(** C27: the width is the conditional standard deviation, and the centre is the
    conditional mean c reflected about the marginal mean. *)
Theorem C27_centre_reflected : forall inverse determinant isProper o n f g H normal,
  let N := initializeNormal inverse determinant isProper normal in
  (o <= n)%nat -> length (no_mean N) = S n ->
  are_inverse (S n) (no_precision N) (no_variance N) -> symmetric (S n) (no_precision N) ->
  0 < entry (no_precision N) o o -> inverts inverse n (getMatrixWithout o (no_variance N)) ->
  let i := make_ifun inverse determinant isProper o f g H normal in
  forall x, length x = n ->
  exists c, (forall c', conditional_mean (S n) (no_precision N) (no_mean N) o (fun t => insert o x t) c' <-> c' = c) /\
    findConditionalMean i x = 2 * nth o (no_mean N) 0 - c /\
    (findConditionalMean i x = c <-> vdot (if_cross i) (vsub x (if_mean2 i)) = 0) /\
    if_sigma i = sqrt (/ entry (no_precision N) o o).
Proof. exact C27_main. Qed.
Print Assumptions C27_centre_reflected.

(** Precision [[2, 1], [1, 2]], mean zero: given that the second component is 1,
    the first has mean -1/2, and the quadrature is centred at 1/2. *)
Theorem C27_centre_refuted : exists inverse determinant isProper x,
  let i := make_ifun inverse determinant isProper 0 (normal_evaluate tilted)
             (normal_evaluateDerivative tilted) (normal_evaluateSecondDerivative tilted) tilted in
  findConditionalMean i x = 1 / 2 /\
  conditional_mean 2 (no_precision tilted) (no_mean tilted) 0 (fun t => insert 0 x t) (- (1 / 2)).
Proof. exists inv_small, (fun _ => 1), (fun _ => true), [1]. exact tilted_centre. Qed.
Print Assumptions C27_centre_refuted.

Example C27_case : are_inverse 2 (no_precision tilted) (no_variance tilted) /\
  symmetric 2 (no_precision tilted) /\ 0 < entry (no_precision tilted) 0 0 /\
  inverts inv_small 1 (getMatrixWithout 0 (no_variance tilted)).
Proof.
  split; [exact tilted_inverse|]. split; [exact tilted_symmetric|]. split; [unfold entry; cbn; lra|].
  apply inverts_1. lra.
Qed.

(** C28: the product (or quotient) of the two densities, up to a constant, is
    found exactly if the change of the mean of the subset has no effect on the
    other components ... *)
Theorem C28_product_iff : forall inverse determinant n normal sub (divide : bool),
  let d := length (no_mean n) in let k := length sub in
  square d (no_precision n) -> symmetric d (no_precision n) ->
  square k (no_precision normal) -> symmetric k (no_precision normal) ->
  length (no_mean normal) = k -> NoDup sub -> (forall i, In i sub -> (i < d)%nat) ->
  let N := madd (msubset (no_precision n) sub)
                (if divide then mscale (-1) (no_precision normal) else no_precision normal) in
  (exists B, are_inverse k N B) -> inverts inverse k N ->
  let res := multiplySubsetInternal inverse determinant n normal sub divide in
  (exists c, forall x, length x = d ->
     normal_evaluate res x
     = normal_evaluate n x + (if divide then -1 else 1) * normal_evaluate normal (vsubset x sub) + c) <->
  (forall i, (i < d)%nat -> ~ In i sub ->
     sumR k (fun a => entry (no_precision n) i (nth a sub 0%nat)
                      * (nth (nth a sub 0%nat) (no_mean res) 0 - nth (nth a sub 0%nat) (no_mean n) 0)) = 0).
Proof. exact C28_iff. Qed.
Print Assumptions C28_product_iff.

(** ... in particular if the means agree on the subset (and then the mean stays as
    it is), or if the subset is everything. *)
Theorem C28_means_agree : forall inverse determinant n normal sub (divide : bool),
  let d := length (no_mean n) in let k := length sub in
  square d (no_precision n) -> symmetric d (no_precision n) ->
  square k (no_precision normal) -> symmetric k (no_precision normal) ->
  length (no_mean normal) = k -> NoDup sub -> (forall i, In i sub -> (i < d)%nat) ->
  let N := madd (msubset (no_precision n) sub)
                (if divide then mscale (-1) (no_precision normal) else no_precision normal) in
  (exists B, are_inverse k N B) -> inverts inverse k N ->
  let res := multiplySubsetInternal inverse determinant n normal sub divide in
  vsubset (no_mean n) sub = no_mean normal ->
  no_mean res = no_mean n /\
  exists c, forall x, length x = d ->
     normal_evaluate res x
     = normal_evaluate n x + (if divide then -1 else 1) * normal_evaluate normal (vsubset x sub) + c.
Proof. exact C28_agree. Qed.
Print Assumptions C28_means_agree.

Theorem C28_everything_multiplied : forall inverse determinant n normal sub (divide : bool),
  let d := length (no_mean n) in let k := length sub in
  square d (no_precision n) -> symmetric d (no_precision n) ->
  square k (no_precision normal) -> symmetric k (no_precision normal) ->
  length (no_mean normal) = k -> NoDup sub -> (forall i, In i sub -> (i < d)%nat) ->
  let N := madd (msubset (no_precision n) sub)
                (if divide then mscale (-1) (no_precision normal) else no_precision normal) in
  (exists B, are_inverse k N B) -> inverts inverse k N ->
  let res := multiplySubsetInternal inverse determinant n normal sub divide in
  (forall i, (i < d)%nat -> In i sub) ->
  exists c, forall x, length x = d ->
     normal_evaluate res x
     = normal_evaluate n x + (if divide then -1 else 1) * normal_evaluate normal (vsubset x sub) + c.
Proof. exact C28_everything. Qed.
Print Assumptions C28_everything_multiplied.

(** Precision [[2, 1], [1, 2]], mean zero, times N(3, 1) on the first component. *)
Theorem C28_product_refuted : exists inverse determinant n normal,
  inverts inverse 1 (madd (msubset (no_precision n) [0%nat]) (no_precision normal)) /\
  ~ exists c, forall x, length x = 2%nat ->
    normal_evaluate (multiplySubset inverse determinant n normal [0%nat]) x
    = normal_evaluate n x + normal_evaluate normal (vsubset x [0%nat]) + c.
Proof.
  exists inv_small, (fun _ => 1), tilted, shifted. split; [apply shifted_ready|exact shifted_product].
Qed.
Print Assumptions C28_product_refuted.

Example C28_case : square 2 (no_precision tilted) /\ symmetric 2 (no_precision tilted) /\
  square 1 (no_precision shifted) /\ symmetric 1 (no_precision shifted) /\
  are_inverse 1 (madd (msubset (no_precision tilted) [0%nat]) (no_precision shifted)) [[1 / 3]] /\
  inverts inv_small 1 (madd (msubset (no_precision tilted) [0%nat]) (no_precision shifted)).
Proof. exact shifted_ready. Qed.

(** C47: the derivatives of a normal belief. *)
Theorem C47_normal_derivatives : forall n d,
  square d (no_precision n) -> length (no_mean n) = d -> symmetric d (no_precision n) -> (0 < d)%nat ->
  smooth d (normal_evaluate n) (normal_evaluateDerivative n) (normal_evaluateSecondDerivative n) /\
  forall x, length x = d ->
    normal_evaluate n x = no_normalizer n - 1 / 2 * quad d (no_precision n) (no_mean n) x.
Proof.
  intros n d HP Hm Hs Hd. split; [apply C47_main; assumption|]. intros x Lx. apply evaluate_quad; assumption.
Qed.
Print Assumptions C47_normal_derivatives.

Example C47_case : smooth 2 (normal_evaluate tilted) (normal_evaluateDerivative tilted)
                          (normal_evaluateSecondDerivative tilted).
Proof. exact tilted_smooth. Qed.
