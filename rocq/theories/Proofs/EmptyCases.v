From Coq Require Import String List ZArith Bool Arith Lia Sorted Reals Lra.
From Verif Require Import Model.Base Model.Family Model.GLMM Model.SplitFrame Model.Vectors Model.Mixed Model.MultiNormal
  Model.NormalSig Model.ClusterGraph Model.LfunSR Spec.Numbers Spec.FamilySpec Spec.GLMMSpec Spec.SplitSpec Spec.EmptySpec Spec.ISSpec
  Spec.BeliefSpec Spec.IntegralSpec Spec.MixedSpec Spec.DensitySpec Spec.TotalSpec Spec.LfunSpec Spec.LogSum Spec.Toy
  Proofs.ListLemmas Proofs.SplitMain Proofs.SplitCases Proofs.DensityJoint Proofs.JointCases Proofs.LfunMain Proofs.LfunCases Proofs.OffsetMain Proofs.EmptyMain.
Import ListNotations.
Local Open Scope R_scope.
Notation length := List.length.

(** The frame of C38: the first of three observations has no random effect. *)
Lemma shifted_regular : regular shifted.
Proof. apply slopes_regular. intros r x []. Qed.
Lemma shifted_Lam r k : stored (fr_Lambdat _ shifted) r k -> r = k /\ (k < 2)%nat.
Proof.
  intros S. pose proof (stored_cols _ _ _ S) as L. cbn in L. destruct S as (x & S).
  destruct k as [|[|k]]; [| |lia]; cbn in S; destruct S as [S|[]]; injection S as <- _; lia.
Qed.
Lemma shifted_closed : closed shifted.
Proof. intros r k j S T. apply shifted_Lam in T as [-> _]. exact S. Qed.
Lemma shifted_depends o r : depends (fr_Lambdat _ shifted) (fr_Zt _ shifted) o r <-> (o = 1 /\ r = 0 \/ o = 2 /\ r = 1)%nat.
Proof.
  split.
  - intros (k & S & T). apply shifted_Lam in T. destruct T as [-> _]. destruct S as (x & S).
    destruct o as [|[|[|o]]]; cbn in S; [destruct S| | |destruct o; destruct S]; destruct S as [S|[]]; injection S as <- _; lia.
  - intros [[-> ->]|[-> ->]]; [exists 0%nat|exists 1%nat]; split; exists 1; now left.
Qed.
Definition shifted_src (o : nat) : nat := match o with O => 1 | S O => 2 | _ => 1 end%nat.
Lemma shifted_with : with_effects shifted [1; 2]%nat.
Proof.
  split; [repeat constructor|]. intros o. change (length (cs_cols (fr_Zt _ shifted))) with 3%nat. unfold has_effect. split.
  - intros [<-|[<-|[]]]; (split; [lia|]); [exists 0%nat|exists 1%nat]; apply shifted_depends; lia.
  - intros (_ & r & D). apply shifted_depends in D. cbn. lia.
Qed.
Lemma shifted_taken o : (o < 3)%nat -> taken_from shifted [1; 2]%nat o (shifted_src o).
Proof.
  intros Ho. destruct o as [|[|[|o]]]; [| | |lia]; cbn [shifted_src].
  - split; [now left|]. split; [intros j E; cbn in E; injection E as <-; now intros r|]. intros s' [<-|[<-|[]]] _; lia.
  - split; [now right; left|]. split; [intros j E; cbn in E; injection E as <-; now intros r|]. intros s' [<-|[<-|[]]] Su; [|lia].
    exfalso. specialize (Su 2%nat eq_refl 1%nat ltac:(apply shifted_depends; lia)). apply shifted_depends in Su. lia.
  - split; [now left|]. split; [intros j E; cbn in E; discriminate|]. intros s' [<-|[<-|[]]] _; lia.
Qed.

(** The loglikelihoods at beta = 1, theta = 1. *)
Lemma whole_shifted a b : factor_loglik logistic (whole shifted) [1] [1] [a; b] =
  ln (clip (logistic 1)) + (ln (clip (logistic (1 + a))) + ln (clip (logistic (1 + b)))).
Proof.
  rewrite (whole_loglik shifted shifted_regular). unfold lsum. cbn [slopes shifted fr_Zt cs_cols length seq map fold_right Nat.sub].
  assert (Q : forall k c, eta (whole shifted) [1] [1] [a; b] k = c -> (k < 3)%nat -> contribution shifted logistic [1] [1] [a; b] k = ln (clip (logistic c))).
  { intros k c E Hk. unfold contribution. rewrite E. destruct k as [|[|[|k]]]; [| | |lia]; cbn -[IZR clip logistic ln]; ring. }
  rewrite (Q 0%nat 1), (Q 1%nat (1 + a)), (Q 2%nat (1 + b)); try lia; [ring|calc; ring|calc; ring|calc; ring].
Qed.
Lemma keep_shifted : keep shifted shifted_src = 
  mkFrame Rnum [[1]; [1]; [1]] 1 (mkCsc 2 [[]; []; []]) (mkCsc 2 [[(0%nat, 1)]; [(1%nat, 1)]]) [1%Z; 1%Z] (Numeric Rnum [1; 1; 1]) None.
Proof. reflexivity. Qed.
Lemma whole_kept a b : factor_loglik logistic (whole (keep shifted shifted_src)) [1] [1] [a; b] =
  ln (clip (logistic 1)) + (ln (clip (logistic 1)) + ln (clip (logistic 1))).
Proof.
  assert (Reg : regular (keep shifted shifted_src)) by exact (keep_regular shifted shifted_regular shifted_src).
  rewrite (whole_loglik _ Reg). rewrite keep_shifted in *. set (fr := mkFrame _ _ _ _ _ _ _ _). unfold lsum. cbn [fr fr_Zt cs_cols length seq map fold_right Nat.sub].
  assert (Q : forall k, eta (whole fr) [1] [1] [a; b] k = 1 -> (k < 3)%nat -> contribution fr logistic [1] [1] [a; b] k = ln (clip (logistic 1))).
  { intros k E Hk. unfold contribution. rewrite E. destruct k as [|[|[|k]]]; [| | |lia]; cbn -[IZR clip logistic ln]; ring. }
  rewrite !Q; try lia; [ring|calc; ring|calc; ring|calc; ring].
Qed.

Lemma two_sum p (F : (Z -> R) -> R) (E : R -> R -> R) w : (forall w', F w' = ln (E (w' 0%Z) (w' 1%Z))) -> (forall u v, 0 < E u v) ->
  iterated (node_sig two_nodes p) (logsum two_nodes) [0%Z; 1%Z] F w = ln (E (-1) (-1) + E 1 (-1) + (E (-1) 1 + E 1 1)).
Proof.
  intros HF HE. unfold iterated, int_out. cbn [fold_left].
  assert (In1 : forall v, logsum two_nodes (fun u => F (set_item (node_sig two_nodes p) (set_item (node_sig two_nodes p) w 1%Z v) 0%Z u)) = ln (E (-1) v + E 1 v)).
  { intros v. unfold logsum, wsum, two_nodes. cbn [fold_right fst snd]. rewrite !HF. unfold set_item. cbn [Z.eqb Pos.eqb].
    rewrite !exp_ln by apply HE. f_equal. ring. }
  unfold logsum at 1, wsum, two_nodes. cbn [fold_right fst snd].
  match goal with |- ln (1 * exp ?a + (1 * exp ?b + 0)) = _ => replace a with (ln (E (-1) (-1) + E 1 (-1))) by (symmetry; exact (In1 (-1))); replace b with (ln (E (-1) 1 + E 1 1)) by (symmetry; exact (In1 1)) end.
  pose proof (HE (-1) (-1)). pose proof (HE 1 (-1)). pose proof (HE (-1) 1). pose proof (HE 1 1).
  rewrite !exp_ln by lra. f_equal. ring.
Qed.

Definition pc x := clip (logistic x).
Lemma pc_pos x : 0 < pc x.
Proof. unfold pc, clip. apply Rlt_le_trans with tiny; [unfold tiny; lra|apply Rmax_l]. Qed.
Lemma std_two a b : ln (std_normal [a; b]) = ln (phi a * phi b).
Proof. unfold std_normal. cbn [map fold_right]. f_equal. ring. Qed.
Lemma joint_true w : joint_density logistic shifted [1] [1] w = ln (pc 1 * (pc (1 + w 0%Z) * pc (1 + w 1%Z)) * (phi (w 0%Z) * phi (w 1%Z))).
Proof.
  unfold joint_density. change (map w (effects shifted)) with [w 0%Z; w 1%Z]. rewrite whole_shifted, std_two. fold (pc 1) (pc (1 + w 0%Z)) (pc (1 + w 1%Z)).
  pose proof (pc_pos 1). pose proof (pc_pos (1 + w 0%Z)). pose proof (pc_pos (1 + w 1%Z)). pose proof (phi_pos (w 0%Z)). pose proof (phi_pos (w 1%Z)).
  rewrite (ln_mult (pc 1 * _) (_ * _)), (ln_mult (pc 1) (_ * _)), (ln_mult (pc (1 + w 0%Z)) (pc _)); try assumption; try reflexivity; repeat first [assumption | apply Rmult_lt_0_compat].
Qed.
Lemma joint_kept w : joint_density logistic (keep shifted shifted_src) [1] [1] w = ln (pc 1 * (pc 1 * pc 1) * (phi (w 0%Z) * phi (w 1%Z))).
Proof.
  unfold joint_density. change (map w (effects (keep shifted shifted_src))) with [w 0%Z; w 1%Z]. rewrite whole_kept, std_two. fold (pc 1).
  pose proof (pc_pos 1). pose proof (phi_pos (w 0%Z)). pose proof (phi_pos (w 1%Z)).
  rewrite (ln_mult (pc 1 * _) (_ * _)), (ln_mult (pc 1) (_ * _)), (ln_mult (pc 1) (pc 1)); try assumption; try reflexivity; repeat first [assumption | apply Rmult_lt_0_compat].
Qed.
Lemma pc_concave : pc 0 + pc 2 < 2 * pc 1.
Proof.
  destruct logistic_inside as [I0 I1]. unfold pc. rewrite (clip_id _ I0), (clip_id _ I1).
  pose proof (logistic_lt 0 2 ltac:(lra)) as L2.
  assert (U : clip (logistic 2) <= logistic 2).
  { unfold clip. apply Rmax_lub; [lra|apply Rmin_l]. }
  apply Rle_lt_trans with (logistic 0 + logistic 2); [lra|]. clear.
  unfold logistic. rewrite Ropp_0, exp_0. replace (- (2)) with (- (1) + - (1)) by ring. rewrite exp_plus.
  set (a := exp (- (1))). assert (A : 0 < a < 1). { unfold a. split; [apply exp_pos|]. rewrite <- exp_0 at 2. apply exp_increasing. lra. }
  assert (D : / (1 + 1) + / (1 + a * a) - 2 * / (1 + a) = (a - 1) ^ 3 * / (2 * (1 + a * a) * (1 + a))).
  { field. split; nra. }
  assert (0 < / (2 * (1 + a * a) * (1 + a))) by (apply Rinv_0_lt_compat; repeat apply Rmult_lt_0_compat; nra).
  assert ((a - 1) ^ 3 < 0) by (replace ((a - 1) ^ 3) with (- ((1 - a) ^ 3)) by ring; pose proof (pow_lt (1 - a) 3 ltac:(lra)); lra).
  nra.
Qed.

Definition two_approx (ll : R) (pars : list R) : R * rvec * (Z -> Z -> R) := (ll, [0; 0], fun i j => if Z.eqb i j then 2 else 0).
Lemma shifted_setup : match node_setup two_nodes shifted 1 "binomial" "logit" 3 with
  | Ok s => Some (List.length (sr_beliefs _ s)) | _ => None end = Some 4%nat.
Proof. lazy. reflexivity. Qed.
Lemma split_shifted : split_as shifted (keep shifted shifted_src).
Proof. apply (split_keep shifted shifted_regular [1; 2]%nat shifted_with shifted_src shifted_taken); [discriminate|exact shifted_closed]. Qed.
Lemma run_as fr fr' s : split_as fr fr' -> (forall i, In i (fr_Lind _ fr) -> (1 <= i <= 1)%Z) -> fr_numFixed _ fr = 1%nat -> cs_rows (fr_Zt _ fr) = 2%nat ->
  node_setup two_nodes fr 1 "binomial" "logit" 3 = Ok s ->
  exists v, node_lfun two_nodes (two_approx (2 * v)) s [1; 1] = Ok v.
Proof.
  intros Sp HL Nf Nr Es.
  destruct (C57_lfun_as inv_all det_small (fun _ => true) grid fst snd zeros zeros2 (node_sum two_nodes) fr fr' 1 Logit 3 s Sp)
    with (pars := [1; 1]) (mean := [0; 0]) (prec := fun i j : Z => if Z.eqb i j then 2 else 0) as [_ G].
  - lia.
  - intros i Hi. specialize (HL i Hi). lia.
  - exact Es.
  - intros f d d2 k n items b E. injection E as <-. reflexivity.
  - destruct G as [(v & Hv)|((x & H) & _)]; [apply node_exact; apply nodes_ok|rewrite Nf; reflexivity|rewrite Nr; reflexivity| |discriminate].
    exists v. apply (Hv (two_approx (2 * v)) (2 * v) eq_refl). right. field.
Qed.

Theorem C80_refuted_main : exists fr m inverse determinant isnormal T scope eval deriv deriv2 integral (LI : (R -> R) -> R) s laplace pars v (w : Z -> R),
  regular fr /\ closed fr /\ determinants 1 determinant /\
  (forall o, (1 <= o < length (cs_cols (fr_Zt _ fr)))%nat -> has_effect fr o) /\
  find_lfun_SR inverse determinant isnormal T scope eval deriv deriv2 integral fr m "binomial" "logit" 3 = Ok s /\
  lfun_SR inverse determinant isnormal T scope eval deriv deriv2 integral laplace s pars = Ok v /\
  let S := sr_sig inverse determinant isnormal T scope eval deriv deriv2 integral
             (GLMM.mkParams Rnum (firstn m pars) (skipn m pars) (mkFamily Logit Binomial)) in
  exact_integral S LI /\ fubini S LI /\
  INR (cs_rows (fr_Zt _ fr)) * (ln (sqrt (2 * PI)) - logSqrtTwoPi) +
    iterated S LI (effects fr) (joint_density logistic fr (skipn m pars) (firstn m pars)) w < v.
Proof.
  pose proof shifted_setup as Hs. destruct (node_setup two_nodes shifted 1 "binomial" "logit" 3) as [s|e| |] eqn:Es; try discriminate. clear Hs.
  destruct (run_as shifted (keep shifted shifted_src) s split_shifted) as (v & Ev); [intros i [<-|[<-|[]]]; lia|reflexivity|reflexivity|exact Es|].
  exists shifted, 1%nat, inv_all, det_small, (fun _ => true), grid, fst, snd, zeros, zeros2, (node_sum two_nodes), (logsum two_nodes), s, (two_approx (2 * v)), [1; 1], v, (fun _ => 0).
  destruct (node_exact two_nodes (GLMM.mkParams Rnum (firstn 1 [1; 1]) (skipn 1 [1; 1]) (mkFamily Logit Binomial))) as (X & Fb & _); [apply nodes_ok|apply nodes_ok|].
  split; [exact shifted_regular|]. split; [exact shifted_closed|]. split; [exact det_small_1|]. split.
  { intros o Ho. change (length (cs_cols (fr_Zt _ shifted))) with 3%nat in Ho. destruct o as [|[|[|o]]]; try lia; [exists 0%nat|exists 1%nat]; apply shifted_depends; lia. }
  split; [exact Es|]. split; [exact Ev|]. split; [exact X|]. split; [exact Fb|].
  destruct (C56_as inv_all det_small (fun _ => true) grid fst snd zeros zeros2 (node_sum two_nodes) det_small_1 shifted (keep shifted shifted_src) 1 Logit logistic 3 s split_shifted)
    with (laplace := two_approx (2 * v)) (pars := [1; 1]) (v := v) as (_ & _ & G).
  - lia.
  - intros i [<-|[<-|[]]]; lia.
  - left. split; reflexivity.
  - exact Es.
  - exact Ev.
  - pose proof (G (logsum two_nodes) X Fb (fun _ => 0)) as E. cbn [firstn skipn] in *.
    change (effects shifted) with [0%Z; 1%Z] in *.
    assert (Pp : forall u v, 0 < pc 1 * (pc 1 * pc 1) * (phi u * phi v)) by (intros; repeat first [apply pc_pos | apply phi_pos | apply Rmult_lt_0_compat]).
    assert (Pt : forall u v, 0 < pc 1 * (pc (1 + u) * pc (1 + v)) * (phi u * phi v)) by (intros; repeat first [apply pc_pos | apply phi_pos | apply Rmult_lt_0_compat]).
    pose proof (two_sum (GLMM.mkParams Rnum [1] [1] (mkFamily Logit Binomial)) _ (fun u v => pc 1 * (pc 1 * pc 1) * (phi u * phi v)) (fun _ => 0) joint_kept Pp) as Ek.
    pose proof (two_sum (GLMM.mkParams Rnum [1] [1] (mkFamily Logit Binomial)) _ (fun u v => pc 1 * (pc (1 + u) * pc (1 + v)) * (phi u * phi v)) (fun _ => 0) joint_true Pt) as Et.
    rewrite E. apply Rplus_lt_compat_l. unfold node_sig in Ek, Et.
    eapply Rle_lt_trans; [right; exact Et|]. eapply Rlt_le_trans; [|right; symmetry; exact Ek]. cbv beta.
    assert (S : phi (-1) = phi 1) by (unfold phi; do 3 f_equal; ring). rewrite S. 
    replace (1 + -1) with 0 by ring. replace (1 + 1) with 2 by ring.
    pose proof (pc_pos 0). pose proof (pc_pos 1). pose proof (pc_pos 2). pose proof (phi_pos 1). pose proof pc_concave as C.
    apply ln_increasing.
    + repeat apply Rplus_lt_0_compat; repeat first [assumption | apply Rmult_lt_0_compat].
    + set (a := pc 0) in *. set (b := pc 1) in *. set (c := pc 2) in *. set (f := phi 1) in *.
      replace (_ + _) with (b * ((a + c) * (a + c)) * (f * f)) by ring.
      match goal with |- _ < ?r => replace r with (b * ((2 * b) * (2 * b)) * (f * f)) by ring end.
      apply Rmult_lt_compat_r; [now apply Rmult_lt_0_compat|]. apply Rmult_lt_compat_l; [assumption|]. apply Rmult_gt_0_lt_compat; lra.
Qed.

(** The same observations with the one without a random effect at the end. *)
Definition trailing : frame Rnum :=
  mkFrame Rnum [[1]; [1]; [1]] 1 (mkCsc 2 [[(0%nat, 1)]; [(1%nat, 1)]; []])
    (mkCsc 2 [[(0%nat, 1)]; [(1%nat, 1)]]) [1%Z; 1%Z] (Numeric Rnum [1; 1; 1]) None.
Lemma trailing_regular : regular trailing.
Proof.
  constructor; cbn [trailing fr_X fr_numFixed fr_Zt fr_Lambdat fr_Lind fr_response fr_weights response_vector cs_cols cs_rows]; try reflexivity.
  - intros row [<-|[<-|[<-|[]]]]; reflexivity.
  - intros r c S. pose proof (stored_cols _ _ _ S) as L. cbn in L. destruct S as (x & S).
    destruct c as [|[|[|c]]]; cbn in S; [| |destruct S|lia]; destruct S as [S|[]]; injection S as <- _; lia.
  - intros r c S. pose proof (stored_cols _ _ _ S) as L. cbn in L. destruct S as (x & S).
    destruct c as [|[|c]]; cbn in S; [| |lia]; destruct S as [S|[]]; injection S as <- _; lia.
  - intros k Hk. exists 1. destruct k as [|[|k]]; cbn; [now left|now left|lia].
  - discriminate.
Qed.
Lemma trailing_effects : has_effect trailing 0 /\ has_effect trailing 1 /\ ~ has_effect trailing 2.
Proof.
  split; [exists 0%nat, 0%nat; split; exists 1; now left|]. split; [exists 1%nat, 1%nat; split; exists 1; now left|].
  intros (r & k & (x & S) & _). exact S.
Qed.
Lemma trailing_last : empty_last trailing.
Proof.
  destruct trailing_effects as (H0 & H1 & _). intros o o' Ho _. change (length (cs_cols (fr_Zt _ trailing))) with 3%nat in Ho.
  destruct o as [|[|o]]; [exact H0|exact H1|lia].
Qed.

(** * Theorems *)
Section Main.
Context (inverse : rmat -> rmat) (determinant : rmat -> R) (isnormal : R -> bool).
Context (T : Type) (scope : T -> list Z) (eval : T -> rvec -> R) (deriv : T -> rvec -> rvec) (deriv2 : T -> rvec -> rmat)
  (integral : (rvec -> outcome R) -> (rvec -> outcome rvec) -> (rvec -> outcome rmat) -> nat -> mnormal -> list Z -> outcome T).

Lemma C80_likelihood_main : determinants 1 determinant ->
  forall fr l src m lk P nSL s, regular fr -> closed fr -> with_effects fr l -> l <> [] ->
  (forall o, (o < length (cs_cols (fr_Zt _ fr)))%nat -> taken_from fr l o (src o)) -> (1 <= m)%nat ->
  (forall i, In i (fr_Lind _ fr) -> (1 <= i <= Z.of_nat m)%Z) -> inverse_link lk P ->
  find_lfun_SR inverse determinant isnormal T scope eval deriv deriv2 integral fr m "binomial" (link_name lk) nSL = Ok s ->
  forall laplace pars v, lfun_SR inverse determinant isnormal T scope eval deriv deriv2 integral laplace s pars = Ok v ->
  length pars = (fr_numFixed _ fr + m)%nat /\ v <= fst (fst (laplace pars)) / 2 /\
  let S := sr_sig inverse determinant isnormal T scope eval deriv deriv2 integral
             (GLMM.mkParams Rnum (firstn m pars) (skipn m pars) (mkFamily lk Binomial)) in
  forall LI, exact_integral S LI -> fubini S LI ->
  forall w, v = INR (cs_rows (fr_Zt _ fr)) * (ln (sqrt (2 * PI)) - logSqrtTwoPi) +
    iterated S LI (effects fr) (joint_density P (keep fr src) (skipn m pars) (firstn m pars)) w.
Proof.
  intros Det fr l src m lk P nSL s Reg Cl Hl Hne Hsrc Hm HL HP Hs laplace pars v Hv.
  exact (C56_as inverse determinant isnormal T scope eval deriv deriv2 integral Det fr (keep fr src) m lk P nSL s
    (split_keep fr Reg l Hl src Hsrc Hne Cl) Hm HL HP Hs laplace pars v Hv).
Qed.

Lemma split_last fr : regular fr -> empty_last fr -> (exists o, (o < length (cs_cols (fr_Zt _ fr)))%nat /\ has_effect fr o) -> split_as fr fr.
Proof.
  intros Reg La (o & Ho & He). destruct (with_effects_ex fr Reg) as (l & Hl).
  assert (Hne : l <> []) by (intros ->; exact (proj2 (proj2 Hl o) (conj Ho He))).
  destruct (taken_ex fr Reg l Hl Hne) as (src & Hsrc).
  exact (split_right fr Reg l Hl src Hsrc Hne (last_within fr l Hl src Hsrc La)).
Qed.
Lemma C80_last_main : determinants 1 determinant ->
  forall fr m lk P nSL s, regular fr -> empty_last fr -> (exists o, (o < length (cs_cols (fr_Zt _ fr)))%nat /\ has_effect fr o) -> (1 <= m)%nat ->
  (forall i, In i (fr_Lind _ fr) -> (1 <= i <= Z.of_nat m)%Z) -> inverse_link lk P ->
  find_lfun_SR inverse determinant isnormal T scope eval deriv deriv2 integral fr m "binomial" (link_name lk) nSL = Ok s ->
  forall laplace pars v, lfun_SR inverse determinant isnormal T scope eval deriv deriv2 integral laplace s pars = Ok v ->
  length pars = (fr_numFixed _ fr + m)%nat /\ v <= fst (fst (laplace pars)) / 2 /\
  let S := sr_sig inverse determinant isnormal T scope eval deriv deriv2 integral
             (GLMM.mkParams Rnum (firstn m pars) (skipn m pars) (mkFamily lk Binomial)) in
  forall LI, exact_integral S LI -> fubini S LI ->
  forall w, v = INR (cs_rows (fr_Zt _ fr)) * (ln (sqrt (2 * PI)) - logSqrtTwoPi) +
    iterated S LI (effects fr) (joint_density P fr (skipn m pars) (firstn m pars)) w.
Proof.
  intros Det fr m lk P nSL s Reg La Ex Hm HL HP Hs laplace pars v Hv.
  exact (C56_as inverse determinant isnormal T scope eval deriv deriv2 integral Det fr fr m lk P nSL s (split_last fr Reg La Ex) Hm HL HP Hs laplace pars v Hv).
Qed.
End Main.

Lemma C80_factors_main : forall fr l, regular fr -> closed fr -> with_effects fr l -> l <> [] ->
  (exists src, forall o, (o < length (cs_cols (fr_Zt _ fr)))%nat -> taken_from fr l o (src o)) /\
  forall src, (forall o, (o < length (cs_cols (fr_Zt _ fr)))%nat -> taken_from fr l o (src o)) ->
  exists ds, find_factorization_terms Rnum fr =
    Ok (map (GLMMTerm Rnum) ds ++ map (fun i => NormalTerm Rnum [Z.of_nat i] [0] [[1]]) (seq 0 (cs_rows (fr_Zt _ fr)))) /\
  forall P beta theta u, length u = cs_rows (fr_Zt _ fr) ->
    fold_right Rplus 0 (map (fun d => factor_loglik P d beta theta (restrict u (gd_items _ d))) ds) = factor_loglik P (whole (keep fr src)) beta theta u.
Proof.
  intros fr l Reg Cl Hl Hne. split; [exact (taken_ex fr Reg l Hl Hne)|]. intros src Hsrc.
  destruct (split_keep fr Reg l Hl src Hsrc Hne Cl) as (_ & ds & E & _ & H). eauto.
Qed.

Lemma C80_right_main : forall fr l src, regular fr -> with_effects fr l -> 
  (forall o, (o < length (cs_cols (fr_Zt _ fr)))%nat -> taken_from fr l o (src o)) ->
  ((forall o, (o < length (cs_cols (fr_Zt _ fr)))%nat -> within fr o (src o)) -> keep fr src = fr) /\
  (empty_last fr -> forall o, (o < length (cs_cols (fr_Zt _ fr)))%nat -> within fr o (src o)).
Proof.
  intros fr l src Reg Hl Hsrc. split; [|exact (last_within fr l Hl src Hsrc)]. intros W.
  assert (E : cs_cols (fr_Zt _ (keep fr src)) = cs_cols (fr_Zt _ fr)).
  { apply (nth_ext _ _ [] []); [exact (keep_length fr src)|]. intros o Ho. rewrite keep_length in Ho.
    etransitivity; [exact (keep_col fr src o Ho)|]. apply SplitLemmas.filter_all. intros [k x] I. cbn [fst]. apply dependsb_iff.
    apply (W o Ho). exists k. split; [now exists x|]. apply (re_diag _ Reg). apply (re_Zt _ Reg k o). now exists x. }
  destruct fr as [X nf [rows cols] Lam Li y w]. cbn [fr_Zt cs_cols] in *. unfold keep in *. cbn [fr_Zt cs_cols fr_X fr_numFixed fr_Lambdat fr_Lind fr_response fr_weights cs_rows] in *.
  now rewrite E.
Qed.

Lemma C80_case_main : (regular shifted /\ closed shifted /\ with_effects shifted [1; 2]%nat /\ (forall o, (o < 3)%nat -> taken_from shifted [1; 2]%nat o (shifted_src o))) /\
  regular trailing /\ empty_last trailing /\ has_effect trailing 1 /\ ~ has_effect trailing 2 /\
  (forall p, exact_integral (node_sig two_nodes p) (logsum two_nodes) /\ fubini (node_sig two_nodes p) (logsum two_nodes)) /\ determinants 1 det_small /\
  exists s v, node_setup two_nodes trailing 1 "binomial" "logit" 3 = Ok s /\ node_lfun two_nodes (two_approx (2 * v)) s [1; 1] = Ok v.
Proof.
  split; [exact (conj shifted_regular (conj shifted_closed (conj shifted_with shifted_taken)))|]. destruct trailing_effects as (H0 & H1 & H2).
  split; [exact trailing_regular|]. split; [exact trailing_last|]. split; [exact H1|]. split; [exact H2|].
  split; [intros p; destruct (node_exact two_nodes p) as (A & B & _); [apply nodes_ok|apply nodes_ok|auto]|]. split; [exact det_small_1|].
  assert (Hs : match node_setup two_nodes trailing 1 "binomial" "logit" 3 with Ok s => Some (List.length (sr_beliefs _ s)) | _ => None end = Some 4%nat) by (lazy; reflexivity).
  destruct (node_setup two_nodes trailing 1 "binomial" "logit" 3) as [s|e| |] eqn:Es; try discriminate. clear Hs. exists s.
  destruct (run_as trailing trailing s) as (v & Ev); [|intros i [<-|[<-|[]]]; lia|reflexivity|reflexivity|exact Es|eauto].
  apply split_last; [exact trailing_regular|exact trailing_last|]. exists 1%nat. split; [cbn; lia|exact H1].
Qed.
