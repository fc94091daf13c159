(** C63 and C64 for the loglikelihood of a model frame. *)
From Coq Require Import String List Reals Lia Lra Arith ZArith Bool Permutation.
From Verif Require Import Model.Base Model.Family Model.GLMM Model.SplitFrame Model.Items Model.Vectors Model.Mixed Model.ClusterGraph Model.MultiNormal Model.NormalSig
  Model.Quadrature Model.IntegratedFunction Model.SparseGrid Model.SparseStore Model.LfunSR Model.Sequential
  Spec.Numbers Spec.FamilySpec Spec.GLMMSpec Spec.SplitSpec Spec.ISSpec Spec.MatrixSpec Spec.HermiteSpec Spec.LaplaceSpec Spec.NodalSpec Spec.BeliefSpec Spec.TreeSpec
  Spec.IntegralSpec Spec.MixedSpec Spec.DensitySpec Spec.TotalSpec Spec.LfunSpec Spec.JointSpec Spec.SequentialSpec
  Proofs.GLMMLemmas Proofs.VectorLemmas Proofs.SumLemmas Proofs.ListLemmas Proofs.ClusterMain Proofs.MessageLemmas Proofs.NormalMain
  Proofs.ConditionalMain Proofs.StoreMain Proofs.HermiteMain Proofs.LfunMain Proofs.SequentialMain.
Import ListNotations.
Local Open Scope R_scope.

Section Storage.
Context (inverse : rmat -> rmat) (determinant : rmat -> R) (isnormal : R -> bool) (solve : rmat -> rvec -> rvec)
  (operatorSqrt operatorInverseSqrt : rmat -> rmat) (r : rule) (b : basis) (u : elsewhere)
  (k : nat) (D : R -> Prop) (x : nat -> nat -> R) (phi : nat -> nat -> R -> R).
Hypothesis Hinv : forall d A, inverts inverse d A.
Hypothesis TB : total_basis b k D x phi.
Hypothesis NB : nodal k x phi.
Hypothesis X0 : x 0%nat 0%nat = 0.
Hypothesis Sq : forall d A, (0 < d)%nat -> square d A -> square d (operatorSqrt A) /\ square d (operatorInverseSqrt A).

Lemma margin_normal o d n : (o <= d)%nat -> nondegenerate (S d) (no_mean n) (no_precision n) (no_variance n) ->
  0 < MatrixSpec.entry (no_precision n) o o ->
  let N := integrate_item inverse determinant n o in
  no_mean N = erase (no_mean n) o /\ length (no_mean N) = d /\ ((0 < d)%nat -> square d (no_precision N)).
Proof.
  intros Ho [Lm [HPV [HS HP]]] Hp. cbv zeta. unfold integrate_item, getVectorWithout.
  assert (Le : length (erase (no_mean n) o) = d) by (apply erase_length; auto). rewrite Le.
  pose proof (V22_inverse _ _ d o Ho HPV Hp) as VI. pose proof (Hinv _ _ _ VI) as EI. pose proof (V22_square _ _ d o Ho HPV) as [LV _].
  cbn [setVariance no_mean no_precision].
  assert (Em : no_mean (if (0 <? d)%nat then setMean (normal_dim d) (erase (no_mean n) o) else normal_dim d) = erase (no_mean n) o).
  { destruct (Nat.ltb_spec 0 d) as [L|L]; [reflexivity|]. assert (d = 0)%nat by lia. subst d. cbn. destruct (erase (no_mean n) o); [reflexivity|discriminate]. }
  rewrite Em. split; [reflexivity|]. split; [exact Le|]. intros Hd. rewrite LV, (proj2 (Nat.ltb_lt 0 d) Hd), EI. apply VI.
Qed.

Notation integral := (integrate_and_store inverse determinant solve operatorSqrt operatorInverseSqrt r b).
Lemma storage p : stores_at_mean inverse determinant (sr_belief sparse_belief) (sr_scope sparse_belief stored_items) (sr_eval sparse_belief (stored_eval b u) p)
  (fun f d d2 k n items => t <- integral f d d2 k n items ;; Ok (Stored t)) r.
Proof.
  intros f d d2 o n items t E. apply bind_Ok in E. destruct E as (t0 & E & E'). injection E' as <-.
  unfold integrate_and_store in E. apply bind_Ok in E. destruct E as (s & E & E'). injection E' as <-.
  split; [reflexivity|]. intros Ho G Hp.
  destruct (margin_normal o (length items) n Ho G Hp) as (Em & Lm & Ps).
  set (N := integrate_item inverse determinant n o) in *.
  exists (fun x => ok_or [] (d x)), (fun x => ok_or [] (d2 x)).
  set (i := make_ifun inverse determinant normal_isProper o _ _ _ n) in *.
  destruct (C31_mean_main solve operatorSqrt operatorInverseSqrt b k D x phi TB NB N (length items) Lm
    (if_evaluate i r) (if_evaluateDerivative i r) (if_evaluateSecondDerivative i r) X0) as (s' & Es & Ev).
  { intros Hd. apply Sq; auto. }
  rewrite Es in E. injection E as <-. cbn [sr_eval]. unfold stored_eval. cbn [snd]. rewrite <- Em, Ev. reflexivity.
Qed.
End Storage.

Section Run.
Context (inverse : rmat -> rmat) (determinant : rmat -> R) (isnormal : R -> bool) (solve : rmat -> rvec -> rvec)
  (operatorSqrt operatorInverseSqrt : rmat -> rmat) (r : rule) (b : basis) (u : elsewhere)
  (k : nat) (D : R -> Prop) (x : nat -> nat -> R) (phi : nat -> nat -> R -> R).
Hypothesis Hinv : forall d A, inverts inverse d A.
Hypothesis Det : determinants 1 determinant.
Hypothesis TB : total_basis b k D x phi.
Hypothesis NB : nodal k x phi.
Hypothesis X0 : x 0%nat 0%nat = 0.
Hypothesis Sq : forall d A, (0 < d)%nat -> square d A -> square d (operatorSqrt A) /\ square d (operatorInverseSqrt A).
Notation setup := (sequential_setup inverse determinant isnormal solve operatorSqrt operatorInverseSqrt r b u).
Notation lfun := (sequential_lfun inverse determinant isnormal solve operatorSqrt operatorInverseSqrt r b u).
Notation sig_of := (sequential_sig inverse determinant isnormal solve operatorSqrt operatorInverseSqrt r b u).
Notation scopes s := (map (sr_scope sparse_belief stored_items) (sr_beliefs _ s)).

Context (fr : frame Rnum) (m : nat) (l : Family.link) (P : R -> R) (nSL : nat) (s : sr sparse_belief).
Context (Reg : regular fr) (Ne : no_empty fr) (Obs : (1 <= length (cs_cols (fr_Zt _ fr)))%nat) (Hm : (1 <= m)%nat).
Context (HLind : forall i, In i (fr_Lind _ fr) -> (1 <= i <= Z.of_nat m)%Z) (HP : inverse_link l P).
Context (Hs : setup fr m "binomial" (link_name l) nSL = Ok s).
Context (laplace : list R -> R * rvec * (Z -> Z -> R)) (pars : list R) (v ll : R) (mean : rvec) (Q : Z -> Z -> R).
Context (Hv : lfun laplace s pars = Ok v) (El : laplace pars = (ll, mean, Q)).
Let mu := fun e => nth (Z.to_nat e) mean 0.
Let p := pars_of sparse_belief s pars.
Let F := joint_density P fr (skipn m pars) (firstn m pars).
Let q := cs_rows (fr_Zt _ fr).
Let err := ln (sqrt (2 * PI)) - logSqrtTwoPi.

Lemma run_parts : exists cg : cgraph (sig_of p), build (S := sig_of p) (sr_beliefs _ s) = Ok cg /\
  computeLogNormalizingConstant cg mean Q = Ok v /\ scopes_ok (S := sig_of p) (sr_beliefs _ s) /\
  (forall e, In e (effects fr) <-> exists f, In f (sr_beliefs _ s) /\ In e (bscope (sig_of p) f)) /\
  forall w, dsumS (sig_of p) (map (fval (sig_of p) w) (sr_beliefs _ s)) = INR q * err + F w.
Proof.
  destruct (setup_inv _ _ _ _ _ _ _ _ _ _ _ _ _ _ _ Hs) as (_ & _ & Nf & Nr & _).
  pose proof Hv as H. unfold sequential_lfun, lfun_SR in H. rewrite Nf, Nr in H.
  destruct (Nat.eqb_spec (length pars) (fr_numFixed Rnum fr + m)) as [Hp|]; [|discriminate]. cbn [negb] in H.
  rewrite El in H.
  apply bind_Ok in H. destruct H as (cg & Hg & H). apply bind_Ok in H. destruct H as (us & _ & H). apply bind_Ok in H. destruct H as (v' & Hv' & H).
  unfold Rltb in H. destruct (Rlt_dec (ll / 2) v') as [|Hle]; [discriminate|]. injection H as ->.
  destruct (run_scopes inverse determinant isnormal _ _ _ _ _ _ fr m nSL l P s Reg Ne Obs Hm HLind HP Hs pars Hp) as (A & B & _).
  exists cg. split; [exact Hg|]. split; [exact Hv'|]. split; [exact A|]. split; [exact B|].
  intros w. exact (run_value inverse determinant isnormal _ _ _ _ _ _ Det fr m nSL l P s Reg Ne Obs Hm HLind HP Hs pars Hp w).
Qed.

Lemma C63_run es lam V Sigma : r = rule_initialize es 1 -> es (findHermiteJacobi 1) = (lam, V) -> eigendecomposition 1 (findHermiteJacobi 1) lam V ->
  joint_precision (scopes s) (effects fr) Q -> joint_variance (effects fr) Q Sigma -> proper_marginals determinant (effects fr) mu Sigma ->
  v = items_laplace (effects fr) F mu Q + INR q * (err + ln (sqrtPi / sqrt PI)).
Proof.
  intros Hr Hes Hed J JV PM. destruct run_parts as (cg & Hg & Hc & Sc & Hi & Val).
  pose proof (C63_generic inverse determinant isnormal (sr_belief sparse_belief) (sr_scope sparse_belief stored_items)
    (sr_eval sparse_belief (stored_eval b u) p) (sr_deriv sparse_belief (stored_deriv b u) p) (sr_deriv2 sparse_belief (stored_deriv2 b u) p) _ Hinv r
    (storage inverse determinant solve operatorSqrt operatorInverseSqrt r b u k D x phi Hinv TB NB X0 Sq p)
    mu Sigma es lam V Hes Hed (sr_beliefs _ s) (effects fr) cg mean Q v Hr eq_refl Sc (effects_nodup fr) Hi J JV PM Hg Hc) as G.
  rewrite G. unfold items_laplace.
  assert (E : length (effects fr) = q) by (unfold effects; rewrite map_length, seq_length; reflexivity). rewrite E.
  pose proof (Val mu) as Vm. fold p in Vm. 
  match goal with |- ?a + ?c - ?d + ?e = _ => change a with (dsumS (sig_of p) (map (fval (sig_of p) mu) (sr_beliefs sparse_belief s))) end.
  rewrite Vm. ring.
Qed.

Lemma C64_run es n lam V Sigma : r = rule_initialize es n -> (0 < n)%nat -> es (findHermiteJacobi n) = (lam, V) ->
  eigendecomposition n (findHermiteJacobi n) lam V ->
  (forall c, In c (scopes s) -> (length c <= 1)%nat) ->
  joint_precision (scopes s) (effects fr) Q -> joint_variance (effects fr) Q Sigma -> proper_marginals determinant (effects fr) mu Sigma ->
  (exists G c, forall w, F w = fold_right Rplus 0 (map (fun e => G e (w e)) (effects fr)) + c) /\
  forall G c, (forall w, F w = fold_right Rplus 0 (map (fun e => G e (w e)) (effects fr)) + c) ->
  v = fold_right Rplus 0 (map (fun e => adaptive_quadrature (qr_nodes r) (qr_weights r) (mu e) (sqrt (/ Q e e)) (G e)) (effects fr)) + c + INR q * err.
Proof.
  intros Hr Hn Hes Hed One J JV PM. destruct run_parts as (cg & Hg & Hc & Sc & Hi & Val).
  destruct (C29_weights n lam V Hed Hn es Hes) as (Ln & Lw & Pw & _). rewrite <- Hr in Ln, Lw, Pw.
  assert (One' : forall f, In f (sr_beliefs sparse_belief s) -> (length (sr_scope sparse_belief stored_items f) <= 1)%nat).
  { intros f Hf. apply One. now apply in_map. }
  split.
  - exists (item_value _ (sr_scope sparse_belief stored_items) (sr_eval sparse_belief (stored_eval b u) p) (sr_beliefs _ s)).
    exists (constant_value _ (sr_scope sparse_belief stored_items) (sr_eval sparse_belief (stored_eval b u) p) (sr_beliefs _ s) - INR q * err).
    intros w. pose proof (sum_split_items inverse determinant isnormal (sr_belief sparse_belief) (sr_scope sparse_belief stored_items)
      (sr_eval sparse_belief (stored_eval b u) p) (sr_deriv sparse_belief (stored_deriv b u) p) (sr_deriv2 sparse_belief (stored_deriv2 b u) p)
      (fun f d d2 k n items => t <- integrate_and_store inverse determinant solve operatorSqrt operatorInverseSqrt r b f d d2 k n items ;; Ok (Stored t))
      mu Sigma (effects fr) w (effects_nodup fr) (sr_beliefs _ s) One' ltac:(intros f e Hf He; apply Hi; eauto)) as Sp.
    pose proof (eq_trans (eq_sym (Val w)) Sp) as Sp'. lra.
  - intros G c HG.
    transitivity (fold_right Rplus 0 (map (fun e => adaptive_quadrature (qr_nodes r) (qr_weights r) (mu e) (sqrt (/ Q e e)) (G e)) (effects fr)) + (c + INR q * err)); [|ring].
    apply (C64_generic inverse determinant isnormal (sr_belief sparse_belief) (sr_scope sparse_belief stored_items)
    (sr_eval sparse_belief (stored_eval b u) p) (sr_deriv sparse_belief (stored_deriv b u) p) (sr_deriv2 sparse_belief (stored_deriv2 b u) p) _ Hinv r
    (storage inverse determinant solve operatorSqrt operatorInverseSqrt r b u k D x phi Hinv TB NB X0 Sq p)
    mu Sigma (sr_beliefs _ s) (effects fr) cg mean Q (qr_nodes r) (qr_weights r) G (c + INR q * err)); auto.
    + destruct r; reflexivity.
    + intros E. rewrite E in Ln. cbn in Ln. lia.
    + now rewrite Lw, Ln.
    + apply effects_nodup.
    + intros w. etransitivity; [apply Val|]. rewrite HG. match goal with |- ?a = ?b => change (@eq R a b) end. ring.
Qed.
End Run.
