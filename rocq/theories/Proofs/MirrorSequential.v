(** C71 for sequential reduction. *)
From Coq Require Import String List Reals ZArith Bool Arith Lia Lra FunctionalExtensionality.
From Verif Require Import Model.Base Model.Family Model.GLMM Model.SplitFrame Model.Vectors Model.Mixed Model.ClusterGraph Model.MultiNormal Model.Quadrature Model.SparseGrid Model.BasisLevel
  Model.LfunSR Model.Sequential Spec.Numbers Spec.FamilySpec Spec.GLMMSpec Spec.SplitSpec Spec.FramesSpec Spec.ISSpec Spec.MatrixSpec Spec.HermiteSpec Spec.LaplaceSpec Spec.GridSpec Spec.SplineSpec
  Spec.IntegralSpec Spec.DensitySpec Spec.LfunSpec Spec.JointSpec Spec.SequentialSpec Spec.MirrorSpec
  Proofs.LfunMain Proofs.SequentialTotal Proofs.SignMain Proofs.MirrorMain Proofs.SymmetricRule.
Import ListNotations.
Local Open Scope R_scope.
Notation length := List.length.

(** * Integrals *)
Lemma mirror_set (f : Z -> R) (w : Z -> R) (v : Z) (u : R) :
  (fun e => f e * (if Z.eqb e v then u else w e)) = (fun e => if Z.eqb e v then f v * u else f e * w e).
Proof. apply functional_extensionality. intros e. destruct (Z.eqb_spec e v) as [->|]; reflexivity. Qed.

Definition riter (LI : (R -> R) -> R) (order : list Z) (F : (Z -> R) -> R) : (Z -> R) -> R :=
  fold_left (fun (G : (Z -> R) -> R) v (w : Z -> R) => LI (fun u => G (fun x => if Z.eqb x v then u else w x))) order F.

Lemma mirror_iter LI (f : Z -> R) : (forall g h : R -> R, (forall u, g u = h u) -> LI g = LI h) -> (forall g : R -> R, LI (fun u => g (- u)) = LI g) ->
  forall order, (forall e, In e order -> sign (f e)) -> forall F w, riter LI order (fun w => F (fun e => f e * w e)) w = riter LI order F (fun e => f e * w e).
Proof.
  intros EX SY. induction order as [|v order IH]; intros HS F w; [reflexivity|]. unfold riter. cbn [fold_left]. fold (riter LI order).
  assert (Q : (fun w : Z -> R => LI (fun u => F (fun e => f e * (if Z.eqb e v then u else w e)))) =
              (fun w : Z -> R => (fun w : Z -> R => LI (fun u => F (fun x => if Z.eqb x v then u else w x))) (fun e => f e * w e))).
  { apply functional_extensionality. intros w'. cbv beta.
    transitivity (LI (fun u => F (fun e => if Z.eqb e v then f v * u else f e * w' e))); [apply EX; intros u; now rewrite mirror_set|].
    destruct (HS v (or_introl eq_refl)) as [E|E]; rewrite E.
    - apply EX. intros u. now rewrite Rmult_1_l.
    - transitivity (LI (fun u => (fun t => F (fun e => if Z.eqb e v then t else f e * w' e)) (- u))); [apply EX; intros u; now replace (-1 * u) with (- u) by ring|].
      exact (SY (fun t => F (fun e => if Z.eqb e v then t else f e * w' e))). }
  change (riter LI order (fun w : Z -> R => LI (fun u => F (fun e => f e * (if Z.eqb e v then u else w e)))) w =
          riter LI order (fun w : Z -> R => LI (fun u => F (fun x => if Z.eqb x v then u else w x))) (fun e => f e * w e)).
  rewrite Q. refine (IH _ (fun w : Z -> R => LI (fun u => F (fun x => if Z.eqb x v then u else w x))) w). intros e He. apply HS. now right.
Qed.

Lemma firstn_skipn_app {A} (a b : list A) : firstn (length a) (a ++ b) = a /\ skipn (length a) (a ++ b) = b.
Proof. split; [rewrite firstn_app, firstn_all, Nat.sub_diag; apply app_nil_r|rewrite skipn_app, skipn_all, Nat.sub_diag; reflexivity]. Qed.

Lemma effects_sign fr beta theta theta' s e : mirror fr beta theta theta' s -> In e (effects fr) -> sign (sign_of s e).
Proof.
  intros [LS [FS _]] H. unfold effects in H. apply in_map_iff in H. destruct H as [i [<- I]]. apply in_seq in I. unfold sign_of. rewrite Nat2Z.id.
  rewrite Forall_forall in FS. apply FS. apply nth_In. lia.
Qed.

Theorem C71_exact_main inverse determinant isnormal T scope eval deriv deriv2 integral : determinants 1 determinant ->
  forall fr l P nSL sr theta theta' beta s, regular fr -> no_empty fr -> (1 <= length (cs_cols (fr_Zt _ fr)))%nat -> (1 <= length theta)%nat ->
  (forall i, In i (fr_Lind _ fr) -> (1 <= i <= Z.of_nat (length theta))%Z) -> inverse_link l P ->
  length theta' = length theta -> mirror fr beta theta theta' s ->
  find_lfun_SR inverse determinant isnormal T scope eval deriv deriv2 integral fr (length theta) "binomial" (link_name l) nSL = Ok sr ->
  let S t := sr_sig inverse determinant isnormal T scope eval deriv deriv2 integral (GLMM.mkParams Rnum t beta (mkFamily l Binomial)) in
  forall LI : (R -> R) -> R, (forall t, exact_integral (S t) LI) -> (forall t, fubini (S t) LI) -> (forall f, LI (fun u => f (- u)) = LI f) ->
  forall laplace v v', lfun_SR inverse determinant isnormal T scope eval deriv deriv2 integral laplace sr (theta ++ beta) = Ok v ->
  lfun_SR inverse determinant isnormal T scope eval deriv deriv2 integral laplace sr (theta' ++ beta) = Ok v' -> v' = v.
Proof.
  intros DT fr l P nSL sr theta theta' beta s RG NE OB NT LI HP LT MI Es S LI0 EI FU SY laplace v v' Hv Hv'.
  destruct (firstn_skipn_app theta beta) as [E1 E2]. destruct (firstn_skipn_app theta' beta) as [E1' E2']. rewrite LT in E1', E2'.
  destruct (C56_main inverse determinant isnormal T scope eval deriv deriv2 integral DT fr (length theta) l P nSL sr RG NE OB NT LI HP Es laplace _ v Hv) as [_ [_ C]].
  destruct (C56_main inverse determinant isnormal T scope eval deriv deriv2 integral DT fr (length theta) l P nSL sr RG NE OB NT LI HP Es laplace _ v' Hv') as [_ [_ C']].
  rewrite E1, E2 in C. rewrite E1', E2' in C'. cbv zeta in C, C'.
  specialize (C LI0 (EI theta) (FU theta) (fun e => sign_of s e * 0)). specialize (C' LI0 (EI theta') (FU theta') (fun _ => 0)).
  etransitivity; [exact C'|]. etransitivity; [|symmetry; exact C]. f_equal.
  change (riter LI0 (effects fr) (joint_density P fr beta theta') (fun _ => 0) = riter LI0 (effects fr) (joint_density P fr beta theta) (fun e => sign_of s e * 0)).
  assert (Q : joint_density P fr beta theta' = (fun w => joint_density P fr beta theta (fun e => sign_of s e * w e))).
  { apply functional_extensionality. intros w. exact (mirror_density fr beta theta theta' s MI P w). }
  rewrite Q. apply (mirror_iter LI0 (sign_of s)); [exact (ei_ext _ _ (EI theta))|exact SY|]. intros e He. exact (effects_sign fr beta theta theta' s e MI He).
Qed.

(** * Flipped precisions *)
Section Joint.
Context (f : Z -> R) (items : list Z) (HS : forall e, In e items -> sign (f e)) (Q Q' : Z -> Z -> R)
  (HQ : forall x y, In x items -> In y items -> Q' x y = f x * f y * Q x y).

Lemma sq e : In e items -> f e * f e = 1.
Proof. intros H. destruct (HS e H) as [->| ->]; lra. Qed.
Lemma lsumR_ext l (g h : Z -> R) : (forall e, In e l -> g e = h e) -> lsumR l g = lsumR l h.
Proof. unfold lsumR. induction l as [|a l IH]; intros H; [reflexivity|]. cbn. rewrite (H a) by now left. f_equal. apply IH. intros e He. apply H. now right. Qed.
Lemma lsumR_scal l c (g : Z -> R) : lsumR l (fun e => c * g e) = c * lsumR l g.
Proof. unfold lsumR. induction l as [|a l IH]; cbn; [ring|]. unfold lsumR in IH. rewrite IH. ring. Qed.

Lemma flipped_precision scopes : joint_precision scopes items Q -> joint_precision scopes items Q'.
Proof.
  intros [J1 J2 J3]. constructor.
  - intros x y X Y. rewrite !HQ by assumption. rewrite (J1 x y X Y). ring.
  - intros w [x [X W]].
    assert (E : joint_form items Q' w = joint_form items Q (fun e => f e * w e)).
    { unfold joint_form. apply lsumR_ext. intros a A. apply lsumR_ext. intros b B. rewrite HQ by assumption. ring. }
    rewrite E. apply J2. exists x. split; [exact X|]. intros Z. apply W. pose proof (sq x X) as S. rewrite <- (Rmult_1_l (w x)), <- S, Rmult_assoc, Z. ring.
  - intros x y X Y N Z. apply J3; try assumption. intros E. apply Z. rewrite HQ by assumption. rewrite E. ring.
Qed.
Lemma flipped_variance Sigma : joint_variance items Q Sigma -> joint_variance items Q' (fun x y => f x * f y * Sigma x y).
Proof.
  intros V x z X Z. transitivity (f x * f z * lsumR items (fun y => Q x y * Sigma y z)).
  - rewrite <- lsumR_scal. apply lsumR_ext. intros y Y. rewrite HQ by assumption. rewrite <- (Rmult_1_l (f x * f z * _)), <- (sq y Y). ring.
  - rewrite V by assumption. destruct (Z.eqb_spec x z) as [->|]; [rewrite sq by exact Z; ring|ring].
Qed.
End Joint.

(** joint_density depends on the random effects only. *)
Lemma joint_density_ext P fr beta theta w w' : (forall e, In e (effects fr) -> w e = w' e) -> joint_density P fr beta theta w = joint_density P fr beta theta w'.
Proof. intros H. unfold joint_density. assert (E : map w (effects fr) = map w' (effects fr)) by (apply map_ext_in; exact H). now rewrite E. Qed.

Theorem C71_laplace_main : forall q inverse0 solveM L b, is_normal_quantile q -> (1 <= L <= 25)%nat ->
  (forall d A, inverts inverse0 d A) -> solves_systems solveM -> basis_new q inverse0 solveM L = Ok b ->
  forall inverse determinant isnormal solve operatorSqrt operatorInverseSqrt u,
  (forall d A, inverts inverse d A) -> determinants 1 determinant ->
  (forall d A, (0 < d)%nat -> square d A -> square d (operatorSqrt A) /\ square d (operatorInverseSqrt A)) ->
  forall es lam V, es (findHermiteJacobi 1) = (lam, V) -> eigendecomposition 1 (findHermiteJacobi 1) lam V ->
  let r := rule_initialize es 1 in
  forall fr l P nSL sr theta theta' beta s, regular fr -> no_empty fr -> (1 <= length (cs_cols (fr_Zt _ fr)))%nat -> (1 <= length theta)%nat ->
  (forall i, In i (fr_Lind _ fr) -> (1 <= i <= Z.of_nat (length theta))%Z) -> inverse_link l P ->
  length theta' = length theta -> mirror fr beta theta theta' s ->
  sequential_setup inverse determinant isnormal solve operatorSqrt operatorInverseSqrt r b u fr (length theta) "binomial" (link_name l) nSL = Ok sr ->
  forall laplace v v' ll ll' mean mean' Q Q' Sigma, laplace (theta ++ beta) = (ll, mean, Q) -> laplace (theta' ++ beta) = (ll', mean', Q') ->
  let mu := fun e => nth (Z.to_nat e) mean 0 in let mu' := fun e => nth (Z.to_nat e) mean' 0 in
  let f := sign_of s in
  (forall e, In e (effects fr) -> mu' e = f e * mu e) -> (forall x y, In x (effects fr) -> In y (effects fr) -> Q' x y = f x * f y * Q x y) ->
  joint_precision (map (sr_scope sparse_belief stored_items) (sr_beliefs _ sr)) (effects fr) Q ->
  joint_variance (effects fr) Q Sigma -> proper_marginals determinant (effects fr) mu Sigma ->
  proper_marginals determinant (effects fr) mu' (fun x y => f x * f y * Sigma x y) ->
  sequential_lfun inverse determinant isnormal solve operatorSqrt operatorInverseSqrt r b u laplace sr (theta ++ beta) = Ok v ->
  sequential_lfun inverse determinant isnormal solve operatorSqrt operatorInverseSqrt r b u laplace sr (theta' ++ beta) = Ok v' -> v' = v.
Proof.
  intros q inverse0 solveM L b HQ HL HI0 HS0 Eb inverse determinant isnormal solve oS oI u HI DT HO es lam V Hes Hed r fr l P nSL sr theta theta' beta s
    RG NE OB NT LI HP LT MI Es laplace v v' ll ll' mean mean' Q Q' Sigma La La' mu mu' f HM HQ' JP JV PM PM' Hv Hv'.
  destruct (firstn_skipn_app theta beta) as [E1 E2]. destruct (firstn_skipn_app theta' beta) as [E1' E2']. rewrite LT in E1', E2'.
  assert (HS : forall e, In e (effects fr) -> sign (f e)) by (intros e He; exact (effects_sign fr beta theta theta' s e MI He)).
  pose proof (C63_main q inverse0 solveM L b HQ HL HI0 HS0 Eb inverse determinant isnormal solve oS oI u HI DT HO es lam V Hes Hed fr (length theta) l P nSL sr RG NE OB NT LI HP Es
    laplace _ v ll mean Q Sigma La JP JV PM Hv) as C.
  pose proof (C63_main q inverse0 solveM L b HQ HL HI0 HS0 Eb inverse determinant isnormal solve oS oI u HI DT HO es lam V Hes Hed fr (length theta) l P nSL sr RG NE OB NT LI HP Es
    laplace _ v' ll' mean' Q' _ La' (flipped_precision f (effects fr) HS Q Q' HQ' _ JP) (flipped_variance f (effects fr) HS Q Q' HQ' _ JV) PM' Hv') as C'.
  rewrite E1, E2 in C. rewrite E1', E2' in C'. rewrite C, C'. f_equal. unfold items_laplace. f_equal.
  - f_equal. rewrite (mirror_density fr beta theta theta' s MI P). apply joint_density_ext. intros e He. change (f e * mu' e = mu e). rewrite HM by exact He.
    rewrite <- Rmult_assoc, (sq f (effects fr) HS e He). ring.
  - f_equal. f_equal. rewrite <- (det_flip (length (effects fr)) (fun i j => Q (nth i (effects fr) 0%Z) (nth j (effects fr) 0%Z)) (fun i => f (nth i (effects fr) 0%Z))).
    + apply LaplaceMain.det_ext. intros i j Hi Hj. apply HQ'; now apply nth_In.
    + intros i Hi. apply HS. now apply nth_In.
Qed.

(** * Adaptive quadrature *)
Lemma adaptive_flip n lam V es : eigendecomposition n (findHermiteJacobi n) lam V -> (0 < n)%nat -> es (findHermiteJacobi n) = (lam, V) ->
  forall a mu sigma G, sign a ->
  adaptive_quadrature (qr_nodes (rule_initialize es n)) (qr_weights (rule_initialize es n)) (a * mu) sigma (fun t => G (a * t)) =
  adaptive_quadrature (qr_nodes (rule_initialize es n)) (qr_weights (rule_initialize es n)) mu sigma G.
Proof.
  intros Hed Hn Hes a mu sigma G [->| ->]; unfold adaptive_quadrature; f_equal.
  - f_equal. apply map_ext. intros [z w]. cbn [fst snd]. now rewrite !Rmult_1_l.
  - pose proof (rule_symmetric n lam V Hed Hn es Hes (fun z => sqrt 2 * sigma * exp (z ^ 2) * exp (G (mu + sqrt 2 * sigma * z)))) as H.
    etransitivity; [|etransitivity; [exact H|]]; f_equal; apply map_ext; intros [z w]; cbn [fst snd].
    + replace ((- z) ^ 2) with (z ^ 2) by ring. replace (-1 * (-1 * mu + sqrt 2 * sigma * z)) with (mu + sqrt 2 * sigma * - z) by ring. ring.
    + ring.
Qed.

Theorem C71_two_level_main : forall q inverse0 solveM L b, is_normal_quantile q -> (1 <= L <= 25)%nat ->
  (forall d A, inverts inverse0 d A) -> solves_systems solveM -> basis_new q inverse0 solveM L = Ok b ->
  forall inverse determinant isnormal solve operatorSqrt operatorInverseSqrt u,
  (forall d A, inverts inverse d A) -> determinants 1 determinant ->
  (forall d A, (0 < d)%nat -> square d A -> square d (operatorSqrt A) /\ square d (operatorInverseSqrt A)) ->
  forall es n lam V, (0 < n)%nat -> es (findHermiteJacobi n) = (lam, V) -> eigendecomposition n (findHermiteJacobi n) lam V ->
  let r := rule_initialize es n in
  forall fr l P nSL sr theta theta' beta s, regular fr -> no_empty fr -> (1 <= length (cs_cols (fr_Zt _ fr)))%nat -> (1 <= length theta)%nat ->
  (forall i, In i (fr_Lind _ fr) -> (1 <= i <= Z.of_nat (length theta))%Z) -> inverse_link l P ->
  length theta' = length theta -> mirror fr beta theta theta' s ->
  sequential_setup inverse determinant isnormal solve operatorSqrt operatorInverseSqrt r b u fr (length theta) "binomial" (link_name l) nSL = Ok sr ->
  (forall c, In c (map (sr_scope sparse_belief stored_items) (sr_beliefs _ sr)) -> (length c <= 1)%nat) ->
  forall laplace v v' ll ll' mean mean' Q Q' Sigma, laplace (theta ++ beta) = (ll, mean, Q) -> laplace (theta' ++ beta) = (ll', mean', Q') ->
  let mu := fun e => nth (Z.to_nat e) mean 0 in let mu' := fun e => nth (Z.to_nat e) mean' 0 in
  let f := sign_of s in
  (forall e, In e (effects fr) -> mu' e = f e * mu e) -> (forall x y, In x (effects fr) -> In y (effects fr) -> Q' x y = f x * f y * Q x y) ->
  joint_precision (map (sr_scope sparse_belief stored_items) (sr_beliefs _ sr)) (effects fr) Q ->
  joint_variance (effects fr) Q Sigma -> proper_marginals determinant (effects fr) mu Sigma ->
  proper_marginals determinant (effects fr) mu' (fun x y => f x * f y * Sigma x y) ->
  sequential_lfun inverse determinant isnormal solve operatorSqrt operatorInverseSqrt r b u laplace sr (theta ++ beta) = Ok v ->
  sequential_lfun inverse determinant isnormal solve operatorSqrt operatorInverseSqrt r b u laplace sr (theta' ++ beta) = Ok v' -> v' = v.
Proof.
  intros q inverse0 solveM L b HQ HL HI0 HS0 Eb inverse determinant isnormal solve oS oI u HI DT HO es n lam V Hn Hes Hed r fr l P nSL sr theta theta' beta s
    RG NE OB NT LI HP LT MI Es TL laplace v v' ll ll' mean mean' Q Q' Sigma La La' mu mu' f HM HQ' JP JV PM PM' Hv Hv'.
  destruct (firstn_skipn_app theta beta) as [E1 E2]. destruct (firstn_skipn_app theta' beta) as [E1' E2']. rewrite LT in E1', E2'.
  assert (HS : forall e, In e (effects fr) -> sign (f e)) by (intros e He; exact (effects_sign fr beta theta theta' s e MI He)).
  pose proof (C64_main q inverse0 solveM L b HQ HL HI0 HS0 Eb inverse determinant isnormal solve oS oI u HI DT HO es n lam V Hn Hes Hed fr (length theta) l P nSL sr RG NE OB NT LI HP Es TL
    laplace _ v ll mean Q Sigma La JP JV PM Hv) as [[G [c HG]] C].
  pose proof (C64_main q inverse0 solveM L b HQ HL HI0 HS0 Eb inverse determinant isnormal solve oS oI u HI DT HO es n lam V Hn Hes Hed fr (length theta) l P nSL sr RG NE OB NT LI HP Es TL
    laplace _ v' ll' mean' Q' _ La' (flipped_precision f (effects fr) HS Q Q' HQ' _ JP) (flipped_variance f (effects fr) HS Q Q' HQ' _ JV) PM' Hv') as [_ C'].
  rewrite E1, E2 in C, HG. rewrite E1', E2' in C'. specialize (C G c HG).
  specialize (C' (fun e x => G e (f e * x)) c). rewrite C, C'.
  - f_equal. f_equal. f_equal. apply map_ext_in. intros e He. change (nth (Z.to_nat e) mean' 0) with (mu' e). rewrite HM, HQ' by exact He.
    rewrite (sq f (effects fr) HS e He), Rmult_1_l. exact (adaptive_flip n lam V es Hed Hn Hes (f e) (mu e) _ (G e) (HS e He)).
  - intros w. rewrite (mirror_density fr beta theta theta' s MI P). rewrite HG. reflexivity.
Qed.
