(** C75: what the reflected centre of the quadrature costs when the belief is
    normal, in exact arithmetic. *)
From Coq Require Import List Reals Lia Lra Arith Bool.
From Verif Require Import Model.Base Model.Mixed Model.Vectors Model.MultiNormal Model.Quadrature
  Model.IntegratedFunction Model.Margin Spec.GLMMSpec Spec.MatrixSpec Spec.HermiteSpec Spec.LaplaceSpec Spec.ReflectSpec
  Proofs.ReflectStep Proofs.ReflectChain Proofs.NormalCases Proofs.QuadratureCases Proofs.ReflectCases.
Import ListNotations.
Local Open Scope R_scope.

(** C75: integrated over one item, a normal belief is exact, apart from the
    constant used for sqrt(pi), only where the conditional mean of the item is its
    mean.  Elsewhere the result is too small, however many points there are, and the
    error is of the order of the squared distance between the two. *)
Theorem C75_one_item : forall q lam Q es,
  eigendecomposition q (findHermiteJacobi q) lam Q -> (0 < q)%nat -> es (findHermiteJacobi q) = (lam, Q) ->
  forall inverse determinant isProper o n k f g H normal,
  let N := initializeNormal inverse determinant isProper normal in
  (o <= n)%nat -> length (no_mean N) = S n -> are_inverse (S n) (no_precision N) (no_variance N) ->
  symmetric (S n) (no_precision N) -> 0 < entry (no_precision N) o o ->
  inverts inverse n (getMatrixWithout o (no_variance N)) ->
  (forall x, length x = S n -> f x = k - quad (S n) (no_precision N) (no_mean N) x / 2) ->
  forall x, length x = n ->
  exists c I, (forall c', conditional_mean (S n) (no_precision N) (no_mean N) o (fun t => insert o x t) c' <-> c' = c) /\
    integral (fun t => exp (f (insert o x t))) I /\ 0 < I /\
    let e := c - nth o (no_mean N) 0 in
    let error := if_evaluate (make_ifun inverse determinant isProper o f g H normal) (rule_initialize es q) x
                 - (ln I + ln (sqrtPi / sqrt PI)) in
    error <= 0 /\ (error = 0 <-> e = 0) /\
    error <= 4 * Rabs e * sqrt (INR (q - 1) * entry (no_precision N) o o) - 2 * e ^ 2 * entry (no_precision N) o o /\
    (q = 1%nat -> error = - 2 * e ^ 2 * entry (no_precision N) o o).
Proof. intros q lam Q es Hed Hq Hes. exact (C75_main q lam Q Hed Hq es Hes). Qed.
Print Assumptions C75_one_item.

(** Integrated over all items one after the other, with nothing lost in the
    storage, a normal belief gives at most the logarithm of its integral, and with
    two points or more it gives that only if the items are independent. *)
Theorem C75_all_items : forall inverse determinant isProper store q lam Q es,
  eigendecomposition q (findHermiteJacobi q) lam Q -> (0 < q)%nat -> es (findHermiteJacobi q) = (lam, Q) ->
  (forall d N f g H x, nondegenerate d (no_mean N) (no_precision N) (no_variance N) -> length x = d ->
     fst (fst (store f g H N)) x = f x) ->
  forall b d k,
  (forall j A, (j < d)%nat -> inverts inverse j A) ->
  nondegenerate d (no_mean (fb_normal b)) (no_precision (fb_normal b)) (no_variance (fb_normal b)) ->
  (forall j, (j < d)%nat ->
     isProper (Nat.iter j (fun N => normal_without inverse determinant N 0) (fb_normal b)) = true) ->
  (forall y, length y = d -> fb_value b y = k - quad d (no_precision (fb_normal b)) (no_mean (fb_normal b)) y / 2) ->
  exists I, iterated d (fun y => exp (fb_value b y)) I /\ 0 < I /\
    let exact := ln I + INR d * ln (sqrtPi / sqrt PI) in
    let found := belief_logNormalizingConstant inverse determinant isProper store (rule_initialize es q) b in
    found <= exact /\
    ((2 <= q)%nat -> (found = exact <->
       forall i j, (i < d)%nat -> (j < d)%nat -> i <> j -> entry (no_precision (fb_normal b)) i j = 0)).
Proof. exact C75_chain. Qed.
Print Assumptions C75_all_items.

(** Two correlated items and two points: integrating over the first gives too
    little where the second is 1, and integrating over both gives too little. *)
Example C75_case : eigendecomposition 2 (findHermiteJacobi 2) lam2 Q2 /\
  (exists I, integral (fun t => exp (normal_evaluate tilted [t; 1])) I /\ 0 < I /\
    if_evaluate tilted_integrated (rule_initialize es2 2) [1] < ln I + ln (sqrtPi / sqrt PI)) /\
  (exists I, iterated 2 (fun y => exp (normal_evaluate tilted y)) I /\ 0 < I /\
    belief_logNormalizingConstant inv_small (fun _ => 1) (fun _ => true) unchanged (rule_initialize es2 2) tilted_belief
    < ln I + INR 2 * ln (sqrtPi / sqrt PI)).
Proof. exact C75_case_main. Qed.
