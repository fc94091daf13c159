(** C63 and C64: sequential reduction with one point of quadrature, and for models
    with one random effect in each factor. *)
From Coq Require Import String List Reals Lia Lra Arith ZArith Bool Permutation.
From Verif Require Import Model.Base Model.Items Model.Vectors Model.Mixed Model.ClusterGraph Model.MultiNormal Model.NormalSig
  Model.Quadrature Model.IntegratedFunction Model.SparseGrid Model.SparseStore Model.LfunSR Model.Sequential
  Spec.GLMMSpec Spec.MatrixSpec Spec.HermiteSpec Spec.LaplaceSpec Spec.NodalSpec Spec.GraphSpec Spec.ElimSpec Spec.BeliefSpec Spec.TreeSpec
  Spec.IntegralSpec Spec.MessageSpec Spec.JointSpec Spec.SequentialSpec
  Proofs.GLMMLemmas Proofs.VectorLemmas Proofs.SumLemmas Proofs.ListLemmas Proofs.ItemsLemmas Proofs.ElimLemmas Proofs.MixedLemmas Proofs.BuildLemmas
  Proofs.ClusterMain Proofs.MessageLemmas Proofs.MessageMain
  Proofs.NormalMain Proofs.PosDef Proofs.JointLemmas Proofs.JointForms Proofs.JointMain Proofs.JointBuild
  Proofs.ConditionalMain Proofs.LaplaceMain Proofs.PivotMain Proofs.StoreMain
  Proofs.ForwardLemmas Proofs.ForwardStep.
Import ListNotations.
Local Open Scope R_scope.

(** * One integral *)
Section Integral.
Variables (inverse : rmat -> rmat) (determinant : rmat -> R).
Variables (o d : nat) (f : rvec -> R) (g : rvec -> rvec) (H : rvec -> rmat) (N : mnormal).
Hypothesis Ho : (o <= d)%nat.
Hypothesis G : nondegenerate (S d) (no_mean N) (no_precision N) (no_variance N).
Hypothesis Hpos : 0 < entry (no_precision N) o o.
Hypothesis Hpr : normal_isProper N = true.
Hypothesis Hinv : forall d A, inverts inverse d A.
Let i := make_ifun inverse determinant normal_isProper o f g H N.
Let sigma := sqrt (/ entry (no_precision N) o o).
Lemma EN : initializeNormal inverse determinant normal_isProper N = N.
Proof. unfold initializeNormal. rewrite Hpr. reflexivity. Qed.
Lemma members_at : if_over i = o /\ if_function i = f /\ if_sigma i = sigma /\ if_logValueAtMean i = f (no_mean N) /\
  findConditionalMean i (erase (no_mean N) o) = nth o (no_mean N) 0.
Proof.
  destruct G as [Lm [HPV [HS HP]]].
  pose proof (made_members inverse determinant normal_isProper o d f g H N Ho) as M. rewrite EN in M.
  specialize (M Lm HPV HS Hpos (Hinv _ _)).
  destruct M as (E1 & E2 & _ & _ & E5 & E6 & E7 & E8). fold i in E1, E2, E5, E6, E7, E8.
  repeat split; auto.
  - unfold i, make_ifun. rewrite EN. destruct (if Nat.ltb _ _ then _ else _). reflexivity.
  - unfold findConditionalMean. rewrite E5, E6, E7. destruct (Nat.ltb_spec 0 (length (erase (no_mean N) o))) as [L|L]; [|reflexivity].
    unfold getVectorWithout at 2. rewrite (vdot_diff _ _ d); [lra| |apply erase_length; auto].
    rewrite mvmul_length. apply mat_of_square.
Qed.
Lemma ln_sigma : ln sigma = - (1 / 2) * ln (entry (no_precision N) o o).
Proof.
  unfold sigma. rewrite <- Rpower_sqrt by (apply Rinv_0_lt_compat; exact Hpos). unfold Rpower. rewrite ln_exp, ln_Rinv by exact Hpos. field.
Qed.
Lemma sigma_pos : 0 < sigma.
Proof. apply sqrt_lt_R0, Rinv_0_lt_compat, Hpos. Qed.
Lemma one_at_mean es lam Q : es (findHermiteJacobi 1) = (lam, Q) -> eigendecomposition 1 (findHermiteJacobi 1) lam Q ->
  if_evaluate i (rule_initialize es 1) (erase (no_mean N) o)
  = f (no_mean N) + ln (sqrt 2 * sqrtPi) - 1 / 2 * ln (entry (no_precision N) o o).
Proof.
  intros Hes Hed. destruct members_at as (E1 & E2 & E3 & E4 & E5).
  rewrite (one_point es lam Q Hes Hed i) by (rewrite E3; apply sigma_pos).
  rewrite E1, E2, E3, E5. rewrite (insert_erase o _ _ d) by (apply G || auto).
  assert (H2 : 0 < sqrt 2) by (apply sqrt_lt_R0; lra). assert (HsP : 0 < sqrtPi) by (unfold sqrtPi; lra).
  rewrite ln_mult; [|apply Rmult_lt_0_compat; assumption|exact sigma_pos]. rewrite ln_sigma. lra.
Qed.
(** In one dimension, with any rule that has positive weights. *)
Lemma quadrature_at nodes weights : d = 0%nat -> nodes <> [] -> length weights = length nodes -> Forall (fun w => 0 < w) weights ->
  if_evaluate i (mkRule nodes weights) []
  = adaptive_quadrature nodes weights (nth 0 (no_mean N) 0) sigma (fun t => f [t]).
Proof.
  intros D0 Hn Hl Hw. destruct members_at as (E1 & E2 & E3 & E4 & E5).
  assert (O0 : o = 0%nat) by lia.
  destruct G as [Lm _]. destruct (no_mean N) as [|m0 [|]] eqn:Em; try (cbn in Lm; lia).
  rewrite O0 in E5. cbn [erase] in E5. unfold if_evaluate. rewrite E4, E5. cbn [nth].
  unfold integrateNoLog, integrate1D. cbn [qr_nodes qr_weights]. rewrite E3.
  set (c := f [m0]).
  assert (EF : forall l a, fold_left (fun ret nw => let node := fst nw in
        let transformedNode := sqrt 2 * sigma * node + m0 in
        ret + snd nw * (fun t => exp (if_function i (extendArgument i [] t) - if_logValueAtMean i)) transformedNode * exp (node ^ 2)) l a
     = a + fold_right Rplus 0 (map (fun p => snd p * exp (fst p ^ 2) * exp (f [m0 + sqrt 2 * sigma * fst p] - c)) l)).
  { induction l as [|p l IH]; intros a; cbn [fold_left map fold_right]; [ring|]. rewrite IH. cbv zeta.
    unfold extendArgument. rewrite E1, E2, E4, O0. cbn [insert]. fold c. rewrite (Rplus_comm (sqrt 2 * sigma * fst p) m0). ring. }
  rewrite EF. unfold adaptive_quadrature. fold c. rewrite Rplus_0_l.
  assert (P : 0 < fold_right Rplus 0 (map (fun p => snd p * exp (fst p ^ 2) * exp (f [m0 + sqrt 2 * sigma * fst p] - c)) (combine nodes weights))).
  { destruct nodes as [|x nodes]; [congruence|]. destruct weights as [|w weights]; [discriminate|].
    cbn [combine map fold_right fst snd].
    assert (A : forall l, (forall p : R * R, In p l -> 0 < snd p) ->
      0 <= fold_right Rplus 0 (map (fun p => snd p * exp (fst p ^ 2) * exp (f [m0 + sqrt 2 * sigma * fst p] - c)) l)).
    { induction l as [|p l IH]; intros Hp; cbn [map fold_right]; [lra|].
      assert (0 < snd p * exp (fst p ^ 2) * exp (f [m0 + sqrt 2 * sigma * fst p] - c)).
      { repeat apply Rmult_lt_0_compat; try apply exp_pos. apply Hp. now left. }
      specialize (IH (fun q Hq => Hp q (or_intror Hq))). lra. }
    pose proof (Forall_inv Hw) as W1. pose proof (Forall_inv_tail Hw) as W2. cbn beta in W1.
    assert (0 < w * exp (x ^ 2) * exp (f [m0 + sqrt 2 * sigma * x] - c)) by (repeat apply Rmult_lt_0_compat; auto using exp_pos).
    specialize (A (combine nodes weights)).
    assert (0 <= fold_right Rplus 0 (map (fun p => snd p * exp (fst p ^ 2) * exp (f [m0 + sqrt 2 * sigma * fst p] - c)) (combine nodes weights))).
    { apply A. intros [a b] Hp. apply in_combine_r in Hp. cbn. rewrite Forall_forall in W2. auto. }
    lra. }
  assert (H2 : 0 < sqrt 2) by (apply sqrt_lt_R0; lra). pose proof sigma_pos as Hs.
  match goal with |- ln ?a + c = _ => transitivity (ln (a * exp c)) end.
  { rewrite (ln_mult _ (exp c)); [rewrite ln_exp; reflexivity|repeat apply Rmult_lt_0_compat; auto|apply exp_pos]. }
  f_equal.
  clear P EF. induction (combine nodes weights) as [|p l IH]; cbn [map fold_right]; [ring|]. rewrite <- IH.
  replace (exp (f [m0 + sqrt 2 * sigma * fst p])) with (exp (f [m0 + sqrt 2 * sigma * fst p] - c) * exp c)
    by (rewrite <- exp_plus; f_equal; ring). ring.
Qed.
End Integral.

(** * Beliefs *)
Lemma map_erase {A C} (f : A -> C) l : forall k, map f (erase l k) = erase (map f l) k.
Proof. induction l as [|x l IH]; intros [|k]; cbn; auto. now rewrite IH. Qed.
Lemma good_nondegenerate determinant mu C n d : good determinant mu C n -> length C = d ->
  nondegenerate d (no_mean n) (no_precision n) (no_variance n).
Proof.
  intros G <-. split; [rewrite (g_mean _ _ _ _ G); apply map_length|]. split; [apply G|]. split; [apply G|].
  intros v Lv Hv. rewrite quad_zero by auto. apply (g_pd _ _ _ _ G). exact Hv.
Qed.
Lemma good_diagonal determinant mu C n k : good determinant mu C n -> (k < length C)%nat -> 0 < entry (no_precision n) k k.
Proof.
  intros G Hk. pose proof (g_pd _ _ _ _ G (unit_entry k)) as H.
  assert (E : bil (length C) (entry (no_precision n)) (unit_entry k) (unit_entry k) = entry (no_precision n) k k).
  { unfold bil. rewrite (sumR_single (length C) k); [|exact Hk|].
    - rewrite (sumR_single (length C) k); [|exact Hk|].
      + unfold unit_entry. rewrite Nat.eqb_refl. ring.
      + intros j Hj Hne. unfold unit_entry. rewrite (proj2 (Nat.eqb_neq k j)) by auto. ring.
    - intros i Hi Hne. transitivity (sumR (length C) (fun _ => 0)); [|apply sumR_zero]. apply sumR_ext. intros j Hj.
      unfold unit_entry at 1. rewrite (proj2 (Nat.eqb_neq k i)) by auto. ring. }
  rewrite E in H. apply H. exists k. split; auto. unfold unit_entry. rewrite Nat.eqb_refl. lra.
Qed.

Section Seq.
Variables (inverse : rmat -> rmat) (determinant : rmat -> R) (isnormal : R -> bool)
  (B0 : Type) (bsc : B0 -> list Z) (bev : B0 -> list R -> R) (bd : B0 -> list R -> list R)
  (bd2 : B0 -> list R -> list (list R))
  (integral : (list R -> outcome R) -> (list R -> outcome (list R)) ->
              (list R -> outcome (list (list R))) -> nat -> mnormal -> list Z -> outcome B0).
Hypothesis Hinv : forall d A, inverts inverse d A.
Let S := normal_sig inverse determinant isnormal B0 bsc bev bd bd2 integral.
Variable r : rule.
(** What is known about the storage. *)
Definition stores_at_mean : Prop := forall f d d2 k n items b, integral f d d2 k n items = Ok b ->
  bsc b = items /\
  ((k <= length items)%nat -> nondegenerate (Datatypes.S (length items)) (no_mean n) (no_precision n) (no_variance n) ->
   0 < entry (no_precision n) k k ->
   exists d' d2', bev b (erase (no_mean n) k) =
     if_evaluate (make_ifun inverse determinant normal_isProper k (fun x => ok_or 0 (f x)) d' d2' n) r (erase (no_mean n) k)).
Hypothesis HSt : stores_at_mean.
Lemma Lgroup : group_laws S.
Proof. constructor; intros; cbn in *; ring. Qed.
Lemma SL : scope_law S.
Proof. intros f d d2 k n items b E. apply (HSt f d d2 k n items b E). Qed.
Variables (mu : Z -> R) (Sigma : Z -> Z -> R).

Record okn (m : mixed S) : Prop := {
  k_items : n_items (m_normal m) = m_items m;
  k_marg : marginal_normal mu Sigma (m_items m) (n_normal (m_normal m));
  k_good : good determinant mu (m_items m) (n_normal (m_normal m))
}.
Lemma okn_same (m m' : mixed S) : m_items m' = m_items m -> m_normal m' = m_normal m -> okn m -> okn m'.
Proof. intros E1 E2 [A B C]. constructor; rewrite ?E1, ?E2; auto. Qed.

Lemma integrate_at (m m' : mixed S) e : mwf m -> okn m -> In e (m_items m) -> integrate m e = Ok m' ->
  okn m' /\ exists d' d2', let n := n_normal (m_normal m) in let k := findRelativeItem e (m_items m) in
    ev m' mu = if_evaluate (make_ifun inverse determinant normal_isProper k (fun x => ok_or 0 (evaluate m x)) d' d2' n) r (erase (no_mean n) k).
Proof.
  intros W K He E. pose proof (mwf_nd _ _ W) as Nd.
  destruct (integrate_wf S m m' e SL W He E) as (W' & I' & F').
  destruct K as [K1 K2 K3].
  unfold integrate in E. apply bind_Ok in E. destruct E as (b & Eb & E). injection E as <-.
  destruct (HSt _ _ _ _ _ _ _ Eb) as [Es Ev].
  set (rest := erase (m_items m) (findRelativeItem e (m_items m))) in *.
  assert (Erest : rest = filter (fun x => negb (x =? e)%Z) (m_items m)) by (apply erase_pos; auto).
  assert (Nr : NoDup rest) by (rewrite Erest; apply NoDup_filter; auto).
  assert (Hk : (findRelativeItem e (m_items m) < length (m_items m))%nat).
  { apply findRelativeItem_spec in He. apply nth_error_Some. congruence. }
  assert (Lr : length (m_items m) = Datatypes.S (length rest)).
  { destruct (length (m_items m)) as [|n] eqn:El; [lia|]. f_equal. symmetry. unfold rest. apply erase_length; auto. lia. }
  split.
  - assert (Hr : incl rest (m_items m)) by (rewrite Erest; intros x Hx; apply filter_In in Hx; tauto).
    destruct (JointLemmas.marginal_good inverse determinant mu Hinv (m_items m) rest (n_normal (m_normal m)) Nd Nr Hr K3) as [Gr _].
    constructor; cbn [setNormal mixed_of_belief recompute m_fixed m_items m_normal n_margin n_items n_normal bscope normal_sig S];
      rewrite ?K1, ?Es; [reflexivity| |exact Gr].
    split; [apply Gr|]. split; [apply Gr|]. intros i j Hi Hj.
    cbn [mn_marginal normal_sig computeMarginal setVariance no_variance].
    etransitivity; [apply entry_msubset; rewrite rel_length; auto|].
    destruct K2 as (_ & _ & K2).
    rewrite !rel_nth by auto. 
    destruct (rel_pos (m_items m) rest Hr (nth i rest 0%Z) (nth_In _ _ Hi)) as [A1 A2].
    destruct (rel_pos (m_items m) rest Hr (nth j rest 0%Z) (nth_In _ _ Hj)) as [B1 B2].
    rewrite K2 by auto. rewrite A2, B2. reflexivity.
  - destruct Ev as (d' & d2' & Ev).
    + lia.
    + rewrite <- Lr. eapply good_nondegenerate; eauto.
    + eapply good_diagonal; eauto.
    + exists d', d2'. cbv zeta. rewrite <- Ev. rewrite ev_total by apply Lgroup.
      unfold factors, setNormal, mixed_of_belief, recompute, total, signed, fval, dsumS. cbn.
      rewrite Rplus_0_r. rewrite Es. unfold rest. rewrite map_erase. destruct K2 as (-> & _). reflexivity.
Qed.

Lemma okn_proper items (m : mixed S) e : proper_marginals determinant items mu Sigma -> mwf m -> okn m -> In e (m_items m) ->
  incl (m_items m) items -> normal_isProper (n_normal (m_normal m)) = true.
Proof.
  intros P W K He Hi. unfold normal_isProper. destruct (Req_EM_T _ 0) as [E|E]; [|reflexivity]. exfalso.
  rewrite (g_norm _ _ _ _ (k_good _ K)) in E. revert E. apply P; auto; [apply W|intros E; rewrite E in He; destruct He|apply K].
Qed.
Lemma value_at_mean (m : mixed S) : mwf m -> okn m -> ok_or 0 (evaluate m (no_mean (n_normal (m_normal m)))) = ev m mu.
Proof.
  intros W K. destruct (k_marg _ K) as (E & _). rewrite E. exact (f_equal (ok_or 0) (evaluate_ev S m mu W)).
Qed.
Lemma length_pos (m : mixed S) e : In e (m_items m) -> exists d, length (m_items m) = Datatypes.S d /\
  (findRelativeItem e (m_items m) <= d)%nat /\ nth (findRelativeItem e (m_items m)) (m_items m) 0%Z = e.
Proof.
  intros He. pose proof (findRelativeItem_spec e (m_items m) He) as E.
  assert (Hk : (findRelativeItem e (m_items m) < length (m_items m))%nat) by (apply nth_error_Some; congruence).
  exists (length (m_items m) - 1)%nat. split; [lia|]. split; [lia|]. apply nth_error_nth. exact E.
Qed.

Variables (es1 : rmat -> rvec * rmat) (lam : rvec) (V1 : rmat).
Hypothesis Hes : es1 (findHermiteJacobi 1) = (lam, V1).
Hypothesis Hed : eigendecomposition 1 (findHermiteJacobi 1) lam V1.
Let c0 := ln (sqrt 2 * sqrtPi).
Lemma step_one items (m m' : mixed S) e : r = rule_initialize es1 1 -> proper_marginals determinant items mu Sigma -> mwf m -> okn m -> In e (m_items m) ->
  incl (m_items m) items -> integrate m e = Ok m' ->
  okn m' /\ ev m' mu = ev m mu + c0
    - 1 / 2 * ln (entry (no_precision (n_normal (m_normal m))) (findRelativeItem e (m_items m)) (findRelativeItem e (m_items m))).
Proof.
  intros Hr P W K He Hi E. destruct (integrate_at m m' e W K He E) as [K' (d' & d2' & Ev)]. split; [exact K'|].
  cbv zeta in Ev. rewrite Ev, Hr. destruct (length_pos m e He) as (d & Ld & Hk & _).
  etransitivity; [apply (one_at_mean inverse determinant _ d) with (lam := lam) (Q := V1); auto|].
  - eapply good_nondegenerate; [apply K|exact Ld].
  - eapply good_diagonal; [apply K|lia].
  - eapply okn_proper; eauto.
  - unfold c0. rewrite value_at_mean by auto. reflexivity.
Qed.

Lemma fold_one items : r = rule_initialize es1 1 -> proper_marginals determinant items mu Sigma ->
  forall is (m m' : mixed S) S0, mwf m -> okn m -> NoDup is -> (forall x, In x is <-> In x (m_items m)) -> incl (m_items m) items ->
  stage Sigma (m_items m) S0 -> foldM integrate is m = Ok m' ->
  mwf m' /\ m_items m' = [] /\
  ev m' mu = ev m mu + INR (length is) * c0 - 1 / 2 * fold_right Rplus 0 (map ln (pivots is S0)).
Proof.
  intros Hr P. induction is as [|e is IH]; intros m m' S0 W K Nd Hin Hi G E.
  - injection E as <-. split; [exact W|]. split; [|cbn; lra].
    destruct (m_items m) as [|x l]; [reflexivity|]. destruct (proj2 (Hin x)). now left.
  - cbn [foldM] in E. apply bind_Ok in E. destruct E as (m1 & E1 & E).
    assert (He : In e (m_items m)) by (apply Hin; now left).
    destruct (step_one items m m1 e Hr P W K He Hi E1) as [K1 V].
    destruct (integrate_wf S m m1 e SL W He E1) as (W1 & I1 & _).
    destruct (length_pos m e He) as (d & Ld & Hk & Ek).
    assert (Ep : entry (no_precision (n_normal (m_normal m))) (findRelativeItem e (m_items m)) (findRelativeItem e (m_items m)) = S0 e e).
    { destruct (k_marg _ K) as (_ & A & B). rewrite <- Ek at 3 4.
      apply (pivot_row Sigma (m_items m) S0 (m_items m) _ (no_variance (n_normal (m_normal m)))); auto; [apply W|apply W|apply incl_refl|apply G|lia]. }
    assert (Hin1 : forall x, In x (m_items m1) <-> In x (m_items m) /\ x <> e).
    { intros x. rewrite I1, filter_In. destruct (Z.eqb_spec x e); cbn; intuition congruence. }
    destruct (IH m1 m' (zschur S0 e) W1 K1) as (W' & I' & V'); auto.
    + exact (proj2 (proj1 (NoDup_cons_iff _ _) Nd)).
    + intros x. rewrite Hin1, <- Hin. simpl. apply NoDup_cons_iff in Nd. intuition (subst; tauto).
    + intros x Hx. apply Hi, Hin1, Hx.
    + apply (stage_next Sigma (m_items m)); auto. apply W1.
    + split; [exact W'|]. split; [exact I'|]. rewrite V', V, Ep. cbn [length map pivots fold_right]. rewrite S_INR. lra.
Qed.

(** The whole forward pass. *)
Section Pass.
Variables (scopes : list (list Z)) (items es : list Z) (cls seps : list (list Z)) (Q : Z -> Z -> R).
Hypothesis Hel : elim (scopes_graph scopes items) es cls seps.
Hypothesis Nit : NoDup items.
Hypothesis Ncl : forall c, In c cls -> NoDup c.
Hypothesis J : joint_precision scopes items Q.
Hypothesis JV : joint_variance items Q Sigma.
Hypothesis PM : proper_marginals determinant items mu Sigma.
Lemma start_stage : stage Sigma (a_items (scopes_graph scopes items)) Q.
Proof. constructor; auto. constructor; apply J. Qed.
Lemma start_adjacent x y : In x items -> In y items -> x <> y -> Q x y <> 0 -> a_adj (scopes_graph scopes items) x y.
Proof. intros Hx Hy Hn HQ. split; auto. apply (jp_local _ _ _ J); auto. Qed.

Record prepared (cg : cgraph S) : Prop := { pr_ok : forall c, In c (cg_clusters cg) -> okn c; pr_fixed : forall c, In c (cg_clusters cg) -> m_fixed c = true }.
Lemma prepared_kept k k' cg cg' : fwd S cls seps k cg -> fwd S cls seps k' cg' -> kept S cg cg' -> prepared cg -> prepared cg'.
Proof.
  intros F F' K [A B].
  assert (G : forall c, In c (cg_clusters cg') -> okn c /\ m_fixed c = true).
  { intros c Hc. apply In_nth_error in Hc. destruct Hc as [i Hi].
    assert (Hci : nth_error cls i = Some (m_items c)) by (rewrite <- (f_items _ _ _ _ _ F'); now apply map_nth_error).
    destruct (cl_nth S cls cg i (m_items c) (f_items _ _ _ _ _ F) Hci) as (ci & N0 & I0).
    destruct (K i ci N0) as (c' & N' & E' & F1); [apply B; eapply nth_error_In; eauto|].
    rewrite Hi in N'. injection N' as <-. split; auto. apply (okn_same ci); auto. apply A. eapply nth_error_In; eauto. }
  split; intros c Hc; apply G; auto.
Qed.
Lemma firstn_next {A} (l : list A) k x : nth_error l k = Some x -> firstn (k + 1) l = firstn k l ++ [x].
Proof.
  revert k. induction l as [|y l IH]; intros [|k] H; simpl in *; try discriminate.
  - now injection H as ->.
  - f_equal. now apply IH.
Qed.
Lemma fold_plus_app l l' : fold_right Rplus 0 (l ++ l') = fold_right Rplus 0 l + fold_right Rplus 0 l'.
Proof. induction l; cbn; lra. Qed.

Lemma forward_one : r = rule_initialize es1 1 -> forall n k (cg cg' : cgraph S) F, (k + n = length seps)%nat -> fwd S cls seps k cg -> prepared cg ->
  tailsum S k cg mu = F + INR k * c0 - 1 / 2 * fold_right Rplus 0 (map ln (firstn k (pivots es Q))) ->
  foldM (fun c k => passMessage c k true false) (seq k n) cg = Ok cg' ->
  fwd S cls seps (length seps) cg' /\ prepared cg' /\
  tailsum S (length seps) cg' mu = F + INR (length seps) * c0 - 1 / 2 * fold_right Rplus 0 (map ln (pivots es Q)).
Proof.
  intros Hr. destruct (elim_lengths Hel) as [HL1 HL2].
  pose proof (scopes_graph_wf scopes items) as Hwf.
  destruct (elim_pivots Sigma _ _ _ _ Hel Hwf Q start_stage start_adjacent) as [Piv _].
  induction n as [|n IH]; intros k cg cg' F Hk W P HV E.
  - simpl in E. injection E as <-. rewrite Nat.add_0_r in Hk. subst k. split; [exact W|]. split; [exact P|].
    rewrite HV. rewrite <- HL2, <- (pivots_length es Q), firstn_all, pivots_length. reflexivity.
  - simpl in E. apply bind_Ok in E. destruct E as (cg1 & E1 & E).
    destruct (nth_error seps k) as [s|] eqn:Es; [|apply nth_error_None in Es; lia].
    destruct (nth_error es k) as [e|] eqn:Ee; [|apply nth_error_None in Ee; lia].
    destruct (forward_step S Lgroup SL scopes items es cls seps Hel k e s cg cg1 W Ee Es E1)
      as (ck & b & Hc & Nk & Wk & Hek & Hik & Eb & W1 & K1 & T1).
    assert (Kk : okn ck) by (apply (pr_ok _ P); eapply nth_error_In; eauto).
    assert (Ick : incl (m_items ck) items).
    { apply (elim_incl _ _ _ _ Hel Hwf). eapply nth_error_In; eauto. }
    destruct (step_one items ck b e Hr PM Wk Kk Hek Ick Eb) as [_ Vb].
    destruct (length_pos ck e Hek) as (d & Ld & Hd & Ek).
    destruct (k_marg _ Kk) as (_ & A & B).
    rewrite (Piv k e (m_items ck) _ _ (findRelativeItem e (m_items ck)) Ee Hc (mwf_nd _ _ Wk) A B ltac:(lia) Ek) in Vb.
    replace (Datatypes.S k) with (k + 1)%nat in E by lia.
    apply (IH (k + 1)%nat cg1 cg'); auto; [lia|apply (prepared_kept k (k + 1) cg cg1); auto|].
    specialize (T1 mu). rewrite HV in T1. cbn [dadd dsub S normal_sig] in T1. rewrite Vb in T1.
    rewrite (firstn_next (pivots es Q) k (nth k (pivots es Q) 0)).
    2:{ apply nth_error_nth'. rewrite pivots_length. apply nth_error_Some. congruence. }
    rewrite map_app, fold_plus_app, plus_INR. cbn [map fold_right INR]. lra.
Qed.
End Pass.

Lemma c0_eq : c0 = 1 / 2 * ln (2 * PI) + ln (sqrtPi / sqrt PI).
Proof.
  assert (H2 : 0 < sqrt 2) by (apply sqrt_lt_R0; lra).
  assert (HsP : 0 < sqrtPi) by (unfold sqrtPi; lra).
  pose proof PI_RGT_0 as HPi. pose proof (sqrt_lt_R0 PI HPi) as HsPi.
  assert (E2 : ln (sqrt 2) = 1 / 2 * ln 2) by (rewrite <- Rpower_sqrt by lra; unfold Rpower; rewrite ln_exp; lra).
  assert (EPi : ln (sqrt PI) = 1 / 2 * ln PI) by (rewrite <- Rpower_sqrt by lra; unfold Rpower; rewrite ln_exp; lra).
  unfold c0. rewrite ln_mult by assumption. rewrite (ln_mult 2 PI) by lra.
  unfold Rdiv at 2. rewrite ln_mult by (auto; apply Rinv_0_lt_compat; exact HsPi). rewrite ln_Rinv by exact HsPi.
  rewrite E2, EPi. field.
Qed.
Lemma NoDup_join (l l' : list Z) : NoDup l -> NoDup l' -> (forall x, In x l -> ~ In x l') -> NoDup (l ++ l').
Proof.
  intros N1 N2 N3. induction l as [|x l IH]; simpl; auto. inversion N1; subst. constructor.
  - rewrite in_app_iff. intros [H|H]; auto. apply (N3 x); simpl; auto.
  - apply IH; auto. intros y Hy. apply N3. now right.
Qed.

(** The order of the items: the eliminated ones, then those of the last cluster. *)
Lemma last_cluster scopes its es cls seps (cg : cgraph S) : elim (scopes_graph scopes its) es cls seps -> ForwardLemmas.fwd S cls seps (length seps) cg ->
  exists ml : mixed S, nth_error (cg_clusters cg) (length seps) = Some ml /\ nth_error cls (length seps) = Some (m_items ml) /\ mwf ml /\
    Z.of_nat (length (cg_clusters cg)) = (Z.of_nat (length seps) + 1)%Z /\
    (forall w, tailsum S (length seps) cg w = ev ml w) /\
    NoDup (es ++ findItemsDifference (m_items ml) []) /\
    (forall x, In x (es ++ findItemsDifference (m_items ml) []) <-> In x its) /\
    NoDup (findItemsDifference (m_items ml) []) /\
    (forall x, In x (findItemsDifference (m_items ml) []) <-> In x (m_items ml)) /\ incl (m_items ml) its.
Proof.
  intros Hel F. pose proof (scopes_graph_wf scopes its) as Hwf. destruct (elim_lengths Hel) as [HL1 HL2].
  destruct (elim_last _ _ _ _ Hel Hwf) as (cl & Hcl & Hcov & Hdis).
  destruct (cl_nth S cls cg _ _ (f_items _ _ _ _ _ F) Hcl) as (ml & Nl & Il).
  assert (Wl : mwf ml) by (apply (f_wf _ _ _ _ _ F); eapply nth_error_In; eauto).
  assert (Hlen : length (cg_clusters cg) = Datatypes.S (length seps)).
  { rewrite <- (map_length m_items), (f_items _ _ _ _ _ F). auto. }
  assert (Hin : forall x, In x (findItemsDifference (m_items ml) []) <-> In x (m_items ml)).
  { intros x. rewrite findItemsDifference_In. simpl. tauto. }
  assert (Ndf : NoDup (findItemsDifference (m_items ml) [])) by apply findItemsDifference_NoDup, Wl.
  exists ml. rewrite Il. split; [exact Nl|]. split; [exact Hcl|]. split; [exact Wl|]. split; [lia|]. split; [|split; [|split; [|split; [|split]]]].
  - intros w. unfold tailsum. rewrite (skipn_nth _ _ _ Nl), skipn_all2 by lia. cbn. lra.
  - rewrite <- Il. apply NoDup_join; auto.
    + eapply elim_es_NoDup; eauto.
    + intros x H1 H2. apply Hin in H2. rewrite Il in H2. apply Hdis in H2. auto.
  - intros x. rewrite <- Il, in_app_iff, Hin, Il. split; [|intros H; now apply Hcov in H]. intros [H|H].
    + exact (elim_es_In _ _ _ _ Hel x H).
    + apply (elim_incl _ _ _ _ Hel Hwf cl); auto. eapply nth_error_In; eauto.
  - rewrite <- Il. exact Ndf.
  - rewrite <- Il. exact Hin.
  - apply (elim_incl _ _ _ _ Hel Hwf cl). eapply nth_error_In; eauto.
Qed.

Lemma C63_generic (fs : list B0) items (cg : cgraph S) mean Q v : r = rule_initialize es1 1 ->
  mu = (fun x => nth (Z.to_nat x) mean 0) ->
  scopes_ok (S := S) fs -> NoDup items -> (forall x, In x items <-> exists f, In f fs /\ In x (bsc f)) ->
  joint_precision (map bsc fs) items Q -> joint_variance items Q Sigma -> proper_marginals determinant items mu Sigma ->
  build (S := S) fs = Ok cg -> computeLogNormalizingConstant cg mean Q = Ok v ->
  v = items_laplace items (fun w => dsumS S (map (fval S w) fs)) mu Q + INR (length items) * ln (sqrtPi / sqrt PI).
Proof.
  intros Hr Emu Hok Nd Hit J JV PM E0 E.
  unfold computeLogNormalizingConstant in E. apply bind_Ok in E. destruct E as (cg1 & E1 & E).
  apply bind_Ok in E. destruct E as (cg2 & E2 & E).
  destruct (forward_start S Lgroup fs cg cg1 mean Q Hok E0 E1) as (its & es & cls & seps & Hel & Nits & Ncl & Hits & F0 & T0 & Fx).
  destruct (C54_good inverse determinant isnormal B0 bsc bev bd bd2 integral Hinv mean Q fs items cg cg1 Hok Nd Hit J E0 E1) as [_ C54].
  destruct (C54 Sigma JV) as [C54c _]. clear C54.
  assert (Same : forall x, In x items <-> In x its) by (intros x; rewrite Hit, Hits; reflexivity).
  assert (J' : joint_precision (map bsc fs) its Q) by (apply (joint_precision_same _ items its); auto).
  assert (JV' : joint_variance its Q Sigma) by (apply (joint_variance_same items its); auto).
  assert (PM' : proper_marginals determinant its mu Sigma).
  { intros C n N1 N2 N3. apply PM; auto. intros x Hx. apply Same, N3, Hx. }
  assert (P0 : prepared cg1).
  { constructor; auto. intros c Hc. destruct (C54c c Hc) as (A & B & C). rewrite <- Emu in B, C. constructor; auto. }
  unfold calibrateForward, calibrateInternal in E2. rewrite (f_ne _ _ _ _ _ F0) in E2.
  destruct (forward_one (map bsc fs) its es cls seps Q Hel Nits J' JV' PM' Hr (length seps) 0 cg1 cg2
    (dsumS S (map (fval S mu) fs)) eq_refl F0 P0) as (F1 & P1 & V1'); [|exact E2|].
  { rewrite T0. cbn [INR firstn map fold_right]. cbn [D S normal_sig]. lra. }
  destruct (last_cluster _ _ _ _ _ cg2 Hel F1) as (ml & Nl & Hcl & Wl & Hlen & Tl & No & Ho & Nr & Hr' & Hi).
  unfold cg_logNormalizingConstant in E.
  replace (Z.of_nat (length (cg_clusters cg2)) - 1)%Z with (Z.of_nat (length seps)) in E by lia.
  rewrite (zat_Ok _ _ _ Nl) in E. cbn [bind] in E.
  unfold mixed_logNormalizingConstant, margin in E. apply bind_Ok in E. destruct E as (m' & Em & E).
  destruct (elim_pivots Sigma _ _ _ _ Hel (scopes_graph_wf _ _) Q (start_stage _ _ _ Nits J' JV') (start_adjacent _ _ _ J')) as [_ St].
  specialize (St (m_items ml) Hcl (mwf_nd _ _ Wl)).
  destruct (fold_one its Hr PM' _ ml m' _ Wl (pr_ok _ P1 ml (nth_error_In _ _ Nl)) Nr Hr' Hi St Em) as (W' & I' & V').
  pose proof (evaluate_ev S m' mu W') as Ev. rewrite I' in Ev. cbn [map] in Ev. 
  assert (Ev' : v = ev m' mu) by (cut (Ok v = Ok (ev m' mu)); [intros H; injection H; auto|rewrite <- E; exact Ev]).
  rewrite Ev', V', <- Tl, V1'. unfold items_laplace.
  set (rest := findItemsDifference (m_items ml) []) in *.
  assert (Pe : Permutation (es ++ rest) items).
  { apply NoDup_Permutation; auto. intros x. rewrite Ho. symmetry. apply Same. }
  assert (PD : posdef (es ++ rest) Q).
  { apply (posdef_same items); auto; [|constructor; apply J]. intros x. rewrite Ho. apply Same. }
  rewrite <- (zdet_det items Q), <- (zdet_perm _ _ Pe Q No PD), (ln_zdet _ Q No PD), pivots_app, map_app, fold_plus_app.
  rewrite <- (Permutation_length Pe), app_length, plus_INR.
  destruct (elim_lengths Hel) as [HL1 HL2]. rewrite HL2. rewrite c0_eq.
  match goal with |- ?a = ?b => change (@eq R a b) end. generalize (dsumS S (map (fval S mu) fs)). intros A. change R in A. field.
Qed.

(** One item, with a normal whose normalizing constant is one. *)
Lemma improper_one (fs : list B0) e (cg cg1 : cgraph S) mean Q v : r = rule_initialize es1 1 ->
  mu = (fun x => nth (Z.to_nat x) mean 0) ->
  scopes_ok (S := S) fs -> (forall x, In x [e] <-> exists f, In f fs /\ In x (bsc f)) ->
  joint_precision (map bsc fs) [e] Q -> joint_variance [e] Q Sigma ->
  - INR 1 * logSqrtTwoPi + 1 / 2 * ln (determinant [[Q e e]]) = 0 -> determinant [[1]] = 1 ->
  build (S := S) fs = Ok cg -> cg_setNormalApprox cg mean Q = Ok cg1 -> cg_edges cg1 = [] -> computeLogNormalizingConstant cg mean Q = Ok v ->
  v = dsumS S (map (fval S mu) fs) + ln (sqrt 2 * sqrtPi).
Proof.
  intros Hr Emu Hok Hit J JV Z D1 E0 E1 Ne E.
  assert (Nd : NoDup [e]) by (constructor; [intros []|constructor]).
  unfold computeLogNormalizingConstant in E. rewrite E1 in E. cbn [bind] in E.
  apply bind_Ok in E. destruct E as (cg2 & E2 & E).
  destruct (forward_start S Lgroup fs cg cg1 mean Q Hok E0 E1) as (its & es & cls & seps & Hel & Nits & Ncl & Hits & F0 & T0 & Fx).
  destruct (C54_good inverse determinant isnormal B0 bsc bev bd bd2 integral Hinv mean Q fs [e] cg cg1 Hok Nd Hit J E0 E1) as [_ C54].
  destruct (C54 Sigma JV) as [C54c _]. clear C54.
  assert (Same : forall x, In x [e] <-> In x its) by (intros x; rewrite Hit, Hits; reflexivity).
  unfold calibrateForward, calibrateInternal in E2. rewrite Ne in E2. cbn in E2. injection E2 as <-.
  assert (Ls : seps = []). { pose proof (f_ne _ _ _ _ _ F0) as L. rewrite Ne in L. destruct seps; [reflexivity|discriminate]. }
  subst seps. cbn [length] in *.
  destruct (last_cluster _ _ _ _ _ cg1 Hel F0) as (ml & Nl & Hcl & Wl & Hlen & Tl & No & Ho & Nr & Hr' & Hi).
  destruct (elim_lengths Hel) as [HL1 HL2]. destruct es; [|discriminate]. cbn [app length] in *.
  assert (Im : m_items ml = [e]).
  { pose proof (mwf_nd _ _ Wl) as Nm. assert (A : forall x, In x (m_items ml) <-> In x [e]) by (intros x; rewrite <- Hr', Ho, Same; reflexivity).
    destruct (m_items ml) as [|x [|y l]].
    - destruct (proj2 (A e)); now left.
    - f_equal. destruct (proj1 (A x)) as [H|[]]; [now left|]. auto.
    - exfalso. assert (x = e) by (destruct (proj1 (A x)) as [H|[]]; [now left|auto]). assert (y = e) by (destruct (proj1 (A y)) as [H'|[]]; [right; now left|auto]).
      subst x y. apply (proj1 (proj1 (NoDup_cons_iff _ _) Nm)). now left. }
  assert (K : okn ml). { destruct (C54c ml (nth_error_In _ _ Nl)) as (A & B & C). rewrite <- Emu in B, C. constructor; auto. }
  unfold cg_logNormalizingConstant in E.
  replace (Z.of_nat (length (cg_clusters cg1)) - 1)%Z with 0%Z in E by lia.
  change 0%Z with (Z.of_nat 0) in E. rewrite (zat_Ok _ _ _ Nl) in E. cbn [bind] in E.
  unfold mixed_logNormalizingConstant, margin in E. apply bind_Ok in E. destruct E as (m' & Em & E).
  assert (Ed : findItemsDifference (m_items ml) [] = [e]) by (rewrite Im; reflexivity). rewrite Ed in Em. cbn [foldM] in Em.
  apply bind_Ok in Em. destruct Em as (m1 & Em & Em'). injection Em' as <-.
  assert (He : In e (m_items ml)) by (rewrite Im; now left).
  destruct (integrate_at ml m1 e Wl K He Em) as [K' (d' & d2' & Ev)].
  destruct (integrate_wf S ml m1 e SL Wl He Em) as (W1 & I1 & _).
  rewrite Im in Ev, I1. cbn [filter] in I1. rewrite Z.eqb_refl in I1. cbn [negb] in I1.
  assert (E0' : findRelativeItem e [e] = 0%nat) by (unfold findRelativeItem; rewrite ?Z.eqb_refl; cbn; rewrite ?Z.eqb_refl; reflexivity).
  cbv zeta in Ev. rewrite E0' in Ev.
  pose proof (evaluate_ev S m1 mu W1) as Ev1. rewrite I1 in Ev1. cbn [map] in Ev1.
  assert (Ev' : v = ev m1 mu) by (cut (Ok v = Ok (ev m1 mu)); [intros H; injection H; auto|rewrite <- E; exact Ev1]).
  rewrite Ev', Ev, Hr. clear Ev' Ev.
  set (n := n_normal (m_normal ml)) in *.
  destruct (k_marg _ K) as (Mn & IPV & EnV). fold n in Mn, IPV, EnV. rewrite Im in Mn, IPV, EnV. cbn [map length] in Mn, IPV, EnV.
  pose proof (k_good _ K) as Gd. fold n in Gd. rewrite Im in Gd.
  assert (Ep : no_precision n = [[Q e e]]).
  { pose proof (IPV) as ((LA & RA) & (LB & RB) & H). destruct (no_precision n) as [|row [|]]; try discriminate.
    pose proof (RA 0%nat ltac:(lia)) as R0. cbn in R0. destruct row as [|a [|]]; try discriminate.
    destruct (H 0%nat 0%nat ltac:(lia) ltac:(lia)) as [H0 _]. cbn in H0. rewrite EnV in H0 by lia. cbn in H0.
    pose proof (JV e e (or_introl eq_refl) (or_introl eq_refl)) as V. cbn in V. rewrite Z.eqb_refl in V.
    unfold entry in H0. cbn in H0. f_equal. f_equal.
    assert (Hs : Sigma e e <> 0) by (intros HS; rewrite HS in V; lra). apply (Rmult_eq_reg_r (Sigma e e)); auto. lra. }
  assert (Hpos : 0 < Q e e).
  { pose proof (jp_pos _ _ _ J (fun _ => 1)) as P. unfold joint_form, lsumR in P. cbn in P.
    assert (0 < 1 * Q e e * 1 + 0 + 0) by (apply P; exists e; split; [now left|lra]). lra. }
  set (n' := setPrecision inverse determinant n [[1]]).
  assert (Ipr : initializeNormal inverse determinant normal_isProper n = n').
  { unfold initializeNormal, normal_isProper. rewrite (g_norm _ _ _ _ Gd), Ep. cbn [length].
    destruct (Req_EM_T _ 0) as [_|H]; [|contradiction]. rewrite Mn. reflexivity. }
  assert (Pr' : normal_isProper n' = true).
  { unfold normal_isProper, n', setPrecision, initializeNormalizer. cbn [no_normalizer]. rewrite D1, ln_1, Mn. cbn [length INR].
    destruct (Req_EM_T _ 0) as [H|_]; [|reflexivity]. unfold logSqrtTwoPi in H. lra. }
  assert (Ei : inverse [[1]] = [[1]]).
  { apply (Hinv 1%nat). split; [|split]; [split; [reflexivity|intros i Hi'; replace i with 0%nat by lia; reflexivity]..|].
    intros i j Hi' Hj'. replace i with 0%nat by lia. replace j with 0%nat by lia. unfold entry. cbn. lra. }
  assert (Same' : make_ifun inverse determinant normal_isProper 0 (fun x => ok_or 0 (evaluate ml x)) d' d2' n
    = make_ifun inverse determinant normal_isProper 0 (fun x => ok_or 0 (evaluate ml x)) d' d2' n').
  { unfold make_ifun. rewrite Ipr. unfold initializeNormal. rewrite Pr'. reflexivity. }
  match goal with |- if_evaluate ?a ?b ?c = ?d => change (if_evaluate a b c = d :> R) end.
  assert (One : if_evaluate (make_ifun inverse determinant normal_isProper 0 (fun x => ok_or 0 (evaluate ml x)) d' d2' n') (rule_initialize es1 1) (erase (no_mean n') 0)
    = ok_or 0 (evaluate ml (no_mean n')) + ln (sqrt 2 * sqrtPi) - 1 / 2 * ln (entry (no_precision n') 0 0)).
  { apply (one_at_mean inverse determinant 0 0 (fun x => ok_or 0 (evaluate ml x)) d' d2' n' (le_n 0)) with (lam := lam) (Q := V1); auto.
    - unfold n', setPrecision. cbn [no_mean no_precision no_variance length Nat.ltb]. rewrite Mn.
      change (Nat.ltb 0 1) with true. cbn match. rewrite Ei. split; [reflexivity|]. split; [|split].
      + split; [|split]; [split; [reflexivity|intros i Hi'; replace i with 0%nat by lia; reflexivity]..|].
        intros i j Hi' Hj'. replace i with 0%nat by lia. replace j with 0%nat by lia. unfold entry. cbn. lra.
      + intros i j Hi' Hj'. replace i with 0%nat by lia. replace j with 0%nat by lia. reflexivity.
      + intros u Hu (i & Hi' & Hne). destruct u as [|a [|]]; try discriminate. replace i with 0%nat in Hne by lia. cbn in Hne.
        unfold quad, sumR, entry. cbn. pose proof (Rlt_0_sqr a Hne) as Sa. unfold Rsqr in Sa. lra.
    - unfold n', setPrecision, entry. cbn. lra. }
  rewrite Same'. etransitivity; [exact One|].
  assert (Ee : ok_or 0 (evaluate ml (no_mean n')) = dsumS S (map (fval S mu) fs)).
  { etransitivity; [exact (value_at_mean ml Wl K)|]. rewrite <- Tl. apply T0. }
  assert (L1 : ln (entry (no_precision n') 0 0) = 0) by (unfold n', setPrecision, entry; cbn; apply ln_1).
  rewrite L1. match goal with |- ?a = ?b => change (@eq R a b) end. rewrite <- Ee. ring.
Qed.


(** * One item in each factor *)
Lemma elim_sparse a es cs ss : elim a es cs ss -> (forall x y, ~ a_adj a x y) ->
  (forall s, In s ss -> s = []) /\ forall c, nth_error cs (length ss) = Some c -> forall x y, In x c -> In y c -> x = y.
Proof.
  induction 1 as [a Hc|a e sep cl es cs ss Hnc Hmin Hnb Hsort Hcl Hel IH]; intros Hno.
  - split; [intros s []|]. intros c Ec x y Hx Hy. injection Ec as <-. destruct (Z.eq_dec x y) as [|N]; auto.
    destruct (Hno x y). apply Hc; auto.
  - assert (Es : sep = []).
    { destruct sep as [|x l]; auto. destruct Hnb as [_ Hnb]. destruct (proj1 (Hnb x) (or_introl eq_refl)) as [_ H]. destruct (Hno _ _ H). }
    subst sep. destruct IH as [I1 I2].
    + intros x y. simpl. intros [H|(_ & H & _)]; [exact (Hno _ _ H)|destruct H].
    + split; [intros s [<-|Hs]; auto|]. exact I2.
Qed.
Definition item_value (fs : list B0) (e : Z) (t : R) : R :=
  fold_right Rplus 0 (map (fun f => bev f [t]) (filter (fun f => match bsc f with [x] => Z.eqb x e | _ => false end) fs)).
Definition constant_value (fs : list B0) : R :=
  fold_right Rplus 0 (map (fun f => bev f []) (filter (fun f => match bsc f with [] => true | _ => false end) fs)).
Lemma map_filter_cons (g : B0 -> R) p f fs :
  fold_right Rplus 0 (map g (filter p (f :: fs))) = (if p f then g f else 0) + fold_right Rplus 0 (map g (filter p fs)).
Proof. cbn [filter]. destruct (p f); cbn; lra. Qed.
Lemma sum_split_items o (w : Z -> R) : NoDup o -> forall fs : list B0,
  (forall f, In f fs -> (length (bsc f) <= 1)%nat) -> (forall f x, In f fs -> In x (bsc f) -> In x o) ->
  dsumS S (map (fval S w) fs) = fold_right Rplus 0 (map (fun e => item_value fs e (w e)) o) + constant_value fs.
Proof.
  intros No fs. induction fs as [|f fs IH]; intros H1 H2.
  - cbn. unfold item_value, constant_value. cbn. clear No H1 H2. induction o; cbn in *; lra.
  - change (fval S w f + dsumS S (map (fval S w) fs) = fold_right Rplus 0 (map (fun e => item_value (f :: fs) e (w e)) o) + constant_value (f :: fs)).
    rewrite (IH (fun f0 Hf => H1 f0 (or_intror Hf)) (fun f0 x Hf => H2 f0 x (or_intror Hf))). clear IH.
    specialize (H1 f (or_introl eq_refl)). specialize (fun x => H2 f x (or_introl eq_refl)).
    unfold constant_value. rewrite map_filter_cons. fold (constant_value fs).
    assert (Ef : fval S w f = bev f (map w (bsc f))) by reflexivity. rewrite Ef.
    destruct (bsc f) as [|x [|]] eqn:E; [| |cbn in H1; lia].
    + cbn [map]. assert (EE : map (fun e => item_value (f :: fs) e (w e)) o = map (fun e => item_value fs e (w e)) o).
      { apply map_ext. intros e. unfold item_value. rewrite map_filter_cons, E. lra. }
      rewrite EE. lra.
    + cbn [map]. specialize (H2 x (or_introl eq_refl)).
      assert (EE : forall l, NoDup l -> fold_right Rplus 0 (map (fun e => item_value (f :: fs) e (w e)) l)
        = (if in_dec Z.eq_dec x l then bev f [w x] else 0) + fold_right Rplus 0 (map (fun e => item_value fs e (w e)) l)).
      { induction l as [|e l IH]; intros N; [cbn; lra|]. cbn [map fold_right]. rewrite IH by exact (proj2 (proj1 (NoDup_cons_iff _ _) N)).
        unfold item_value at 1. rewrite map_filter_cons, E. fold (item_value fs e (w e)).
        pose proof (proj1 (proj1 (NoDup_cons_iff _ _) N)) as Ne.
        destruct (Z.eqb_spec x e) as [->|Nx]; destruct (in_dec Z.eq_dec _ l) as [I|I]; destruct (in_dec Z.eq_dec _ (e :: l)) as [I'|I'];
          cbn [In] in I'; try (exfalso; intuition congruence); lra. }
      rewrite (EE o No). destruct (in_dec Z.eq_dec x o); [lra|contradiction].
Qed.

Lemma adaptive_shift nodes weights m s F c : 0 < s -> nodes <> [] -> length weights = length nodes -> Forall (fun w => 0 < w) weights ->
  adaptive_quadrature nodes weights m s (fun t => F t + c) = adaptive_quadrature nodes weights m s F + c.
Proof.
  intros Hs Hn Hl Hw. unfold adaptive_quadrature.
  assert (H2 : 0 < sqrt 2) by (apply sqrt_lt_R0; lra).
  assert (Pos : forall p, In p (combine nodes weights) -> 0 < sqrt 2 * s * snd p * exp (fst p ^ 2) * exp (F (m + sqrt 2 * s * fst p))).
  { intros [a b] Hp. apply in_combine_r in Hp. cbn [fst snd]. rewrite Forall_forall in Hw. repeat apply Rmult_lt_0_compat; auto using exp_pos. }
  assert (Ne : combine nodes weights <> []) by (destruct nodes, weights; cbn in *; congruence).
  assert (A : forall l, (forall p : R * R, In p l -> 0 < sqrt 2 * s * snd p * exp (fst p ^ 2) * exp (F (m + sqrt 2 * s * fst p))) ->
     0 <= fold_right Rplus 0 (map (fun p => sqrt 2 * s * snd p * exp (fst p ^ 2) * exp (F (m + sqrt 2 * s * fst p))) l) /\
     (l <> [] -> 0 < fold_right Rplus 0 (map (fun p => sqrt 2 * s * snd p * exp (fst p ^ 2) * exp (F (m + sqrt 2 * s * fst p))) l))).
  { induction l as [|p l IH]; intros Hp; [split; [cbn; lra|congruence]|]. destruct (IH (fun q Hq => Hp q (or_intror Hq))) as [I _].
    specialize (Hp p (or_introl eq_refl)). cbn [map fold_right]. split; [|intros _]; lra. }
  destruct (A _ Pos) as [_ P]. specialize (P Ne).
  transitivity (ln (fold_right Rplus 0 (map (fun p => sqrt 2 * s * snd p * exp (fst p ^ 2) * exp (F (m + sqrt 2 * s * fst p))) (combine nodes weights)) * exp c)).
  - f_equal. clear. induction (combine nodes weights) as [|p l IH]; cbn [map fold_right]; [ring|]. rewrite IH, exp_plus. ring.
  - rewrite (ln_mult _ (exp c)) by (auto using exp_pos). rewrite ln_exp. reflexivity.
Qed.

Section Single.
Variables (scopes : list (list Z)) (items : list Z) (Q : Z -> Z -> R) (nodes weights : list R) (Fe : Z -> R -> R).
Hypothesis Nit : NoDup items.
Hypothesis J : joint_precision scopes items Q.
Hypothesis JV : joint_variance items Q Sigma.
Hypothesis PM : proper_marginals determinant items mu Sigma.
Hypothesis Hone : forall s, In s scopes -> (length s <= 1)%nat.
Hypothesis Hr : r = mkRule nodes weights.
Hypothesis Hn : nodes <> [].
Hypothesis Hl : length weights = length nodes.
Hypothesis Hw : Forall (fun w => 0 < w) weights.
Let AQ e := adaptive_quadrature nodes weights (mu e) (sqrt (/ Q e e)) (Fe e).
Lemma alone s x y : In s scopes -> In x s -> In y s -> x = y.
Proof.
  intros Hs Hx Hy. specialize (Hone s Hs). clear - Hone Hx Hy. destruct s as [|a [|]]; [destruct Hx| |cbn in Hone; lia].
  destruct Hx as [<-|[]], Hy as [<-|[]]. reflexivity.
Qed.
Lemma diagonal x y : In x items -> In y items -> x <> y -> Q x y = 0.
Proof.
  intros Hx Hy N. destruct (Req_EM_T (Q x y) 0) as [|NQ]; auto. destruct (jp_local _ _ _ J x y Hx Hy N NQ) as (s & Hs & A & B).
  destruct N. eapply alone; eauto.
Qed.
Lemma single_precision n e : In e items -> marginal_normal mu Sigma [e] n -> entry (no_precision n) 0 0 = Q e e.
Proof.
  intros He (_ & (S1 & S2 & I) & V). destruct (I 0%nat 0%nat ltac:(cbn; lia) ltac:(cbn; lia)) as [I1 _].
  unfold row_col in I1. cbn [length] in I1. rewrite sumR_S, sumR_0, Rplus_0_r in I1. rewrite V in I1 by (cbn; lia). cbn [nth] in I1.
  change (unit_entry 0 0) with 1 in I1. specialize (JV e e He He). rewrite Z.eqb_refl in JV.
  rewrite (lsumR_ext items _ (fun y => if Z.eqb y e then Q e y * Sigma y e else 0)) in JV.
  2:{ intros y Hy. destruct (Z.eqb_spec y e) as [->|N]; [reflexivity|]. rewrite diagonal; auto. ring. }
  rewrite (lsumR_single items e (fun y => Q e y * Sigma y e)) in JV by auto.
  assert (Sigma e e <> 0) by nra. apply (Rmult_eq_reg_r (Sigma e e)); auto. lra.
Qed.
Lemma single_step (m b : mixed S) e c : mwf m -> okn m -> m_items m = [e] -> In e items -> (forall w, ev m w = Fe e (w e) + c) ->
  integrate m e = Ok b -> m_items b = [] /\ mwf b /\ forall w, ev b w = AQ e + c.
Proof.
  intros W K Im He Hev E. assert (Hin : In e (m_items m)) by (rewrite Im; now left).
  destruct (integrate_wf S m b e SL W Hin E) as (Wb & Ib & _).
  assert (Ib' : m_items b = []). { rewrite Ib, Im. cbn. rewrite Z.eqb_refl. reflexivity. }
  split; [exact Ib'|]. split; [exact Wb|]. intros w.
  rewrite (ev_local S Lgroup b w mu Wb) by (rewrite Ib'; intros x []).
  destruct (integrate_at m b e W K Hin E) as [_ (d' & d2' & Ev)]. cbv zeta in Ev. rewrite Ev.
  assert (Ek : findRelativeItem e (m_items m) = 0%nat).
  { pose proof (findRelativeItem_spec e (m_items m) Hin) as H. rewrite Im in H |- *. destruct (findRelativeItem e [e]) as [|[|]]; cbn in H; congruence. }
  rewrite Ek. set (N := n_normal (m_normal m)). pose proof (k_marg _ K) as KM. fold N in KM. rewrite Im in KM.
  pose proof (single_precision N e He KM) as EP. destruct KM as (EM & _).
  rewrite EM. cbn [map erase]. rewrite Hr.
  assert (Gd : 0 < entry (no_precision N) 0 0) by (eapply good_diagonal; [apply K|rewrite Im; cbn; lia]).
  rewrite (quadrature_at inverse determinant 0 0); auto.
  - rewrite EM. cbn [nth map]. rewrite EP. rewrite EP in Gd. unfold AQ.
    rewrite <- (adaptive_shift nodes weights (mu e) (sqrt (/ Q e e)) (Fe e) c); auto.
    2:{ apply sqrt_lt_R0, Rinv_0_lt_compat, Gd. }
    unfold adaptive_quadrature. f_equal. f_equal. apply map_ext. intros p.
    set (t := mu e + sqrt 2 * sqrt (/ Q e e) * fst p).
    assert (Et : evaluate m [t] = Ok (Fe e t + c)).
    { pose proof (evaluate_ev S m (fun _ => t) W) as H. rewrite Im, Hev in H. exact H. }
    rewrite Et. reflexivity.
  - eapply good_nondegenerate; [apply K|]. rewrite Im. reflexivity.
  - eapply okn_proper; eauto. rewrite Im. intros x [<-|[]]. exact He.
Qed.

Variables (es : list Z) (cls seps : list (list Z)) (rest : list Z).
Hypothesis Hel : elim (scopes_graph scopes items) es cls seps.
Hypothesis No : NoDup (es ++ rest).
Lemma no_edges x y : ~ a_adj (scopes_graph scopes items) x y.
Proof. intros (N & s & Hs & Hx & Hy). destruct N. eapply alone; eauto. Qed.
Lemma change_one e l (w w' : Z -> R) : ~ In e l -> (forall x, x <> e -> w x = w' x) ->
  fold_right Rplus 0 (map (fun x => Fe x (w x)) l) = fold_right Rplus 0 (map (fun x => Fe x (w' x)) l).
Proof.
  intros Ni H. f_equal. apply map_ext_in. intros x Hx. rewrite H; auto. intros ->. contradiction.
Qed.
Lemma forward_single : forall n k (cg cg' : cgraph S) A, (k + n = length seps)%nat -> fwd S cls seps k cg -> prepared cg ->
  (forall w, tailsum S k cg w = fold_right Rplus 0 (map (fun e => Fe e (w e)) (skipn k es ++ rest)) + A) ->
  foldM (fun c k => passMessage c k true false) (seq k n) cg = Ok cg' ->
  fwd S cls seps (length seps) cg' /\ prepared cg' /\
  forall w, tailsum S (length seps) cg' w = fold_right Rplus 0 (map (fun e => Fe e (w e)) rest) + A + fold_right Rplus 0 (map AQ (skipn k es)).
Proof.
  destruct (elim_lengths Hel) as [HL1 HL2].
  pose proof (scopes_graph_wf scopes items) as Hwf. destruct (elim_sparse _ _ _ _ Hel no_edges) as [Hsep _].
  induction n as [|n IH]; intros k cg cg' A Hk W P HV E.
  - simpl in E. injection E as <-. rewrite Nat.add_0_r in Hk. subst k. split; [exact W|]. split; [exact P|].
    intros w. rewrite HV. rewrite skipn_all2 by lia. cbn [app map fold_right]. lra.
  - simpl in E. apply bind_Ok in E. destruct E as (cg1 & E1 & E).
    destruct (nth_error seps k) as [s|] eqn:Es; [|apply nth_error_None in Es; lia].
    destruct (nth_error es k) as [e|] eqn:Ee; [|apply nth_error_None in Ee; lia].
    destruct (forward_step S Lgroup SL scopes items es cls seps Hel k e s cg cg1 W Ee Es E1)
      as (ck & b & Hc & Nk & Wk & Hek & Hik & Eb & W1 & K1 & T1).
    assert (s = []) by (apply Hsep; eapply nth_error_In; eauto). subst s.
    assert (Ic : m_items ck = [e]).
    { pose proof (mwf_nd _ _ Wk) as Nd. destruct (m_items ck) as [|x [|y l]]; [destruct Hek| |].
      - destruct (proj1 (Hik x) (or_introl eq_refl)) as [->|[]]. reflexivity.
      - exfalso. destruct (proj1 (Hik x) (or_introl eq_refl)) as [->|[]]. destruct (proj1 (Hik y) (or_intror (or_introl eq_refl))) as [->|[]].
        apply NoDup_cons_iff in Nd. apply (proj1 Nd). now left. }
    assert (Kk : okn ck) by (apply (pr_ok _ P); eapply nth_error_In; eauto).
    assert (He : In e items).
    { apply (elim_es_In _ _ _ _ Hel). eapply nth_error_In; eauto. }
    rewrite (skipn_nth _ _ _ Ee) in HV |- *. cbn [app map fold_right] in HV |- *.
    replace (Datatypes.S k) with (k + 1)%nat in * by lia.
    assert (Nt : ~ In e (skipn (k + 1) es ++ rest)).
    { rewrite <- (firstn_skipn k es), <- app_assoc in No. rewrite (skipn_nth _ _ _ Ee) in No. cbn [app] in No.
      replace (Datatypes.S k) with (k + 1)%nat in No by lia.
      apply NoDup_remove_2 in No. rewrite in_app_iff in No. tauto. }
    assert (Hev : forall w, ev ck w = Fe e (w e) + (ev ck mu - Fe e (mu e))).
    { intros w. set (w' := fun x => if Z.eqb x e then mu e else w x).
      assert (We : w' e = mu e) by (unfold w'; rewrite Z.eqb_refl; reflexivity).
      assert (Wo : forall x, x <> e -> w x = w' x) by (intros x Hx; unfold w'; destruct (Z.eqb_spec x e); congruence).
      pose proof (T1 w) as A1. pose proof (T1 w') as A2. rewrite HV in A1, A2. cbn [dadd dsub S normal_sig] in A1, A2.
      rewrite (change_one e _ w w' Nt Wo) in A1. rewrite We in A2.
      assert (B1 : ev ck w' = ev ck mu).
      { apply (ev_local S Lgroup ck w' mu Wk). rewrite Ic. intros x [<-|[]]. exact We. }
      assert (B2 : ev b w = ev b w').
      { destruct (integrate_wf S ck b e SL Wk Hek Eb) as (Wb & Ib & _). apply (ev_local S Lgroup b w w' Wb). rewrite Ib, Ic. cbn. rewrite Z.eqb_refl. intros x []. }
      assert (B3 : tailsum S (k + 1) cg1 w = tailsum S (k + 1) cg1 w').
      { unfold tailsum. f_equal. apply map_ext_in. intros m Hm. apply (ev_local S Lgroup m w w').
        - apply (f_wf _ _ _ _ _ W1). rewrite <- (firstn_skipn (k + 1) (cg_clusters cg1)). apply in_or_app. now right.
        - intros x Hx. apply Wo. intros ->.
          destruct (elim_cluster _ _ _ _ Hel Hwf k e [] Ee Es) as (c & _ & _ & _ & _ & Hlater).
          apply In_nth_error in Hm. destruct Hm as [i Hi]. rewrite nth_error_skipn' in Hi.
          apply (Hlater (k + 1 + i)%nat (m_items m)); auto; [lia|]. rewrite <- (f_items _ _ _ _ _ W1). now apply map_nth_error. }
      rewrite B3, B2 in A1. rewrite B1 in A2. cbn [D S normal_sig] in *. lra. }
    destruct (single_step ck b e _ Wk Kk Ic He Hev Eb) as (_ & _ & Vb).
    destruct (IH (k + 1)%nat cg1 cg' (A + AQ e)) as (F' & P' & V'); auto; [lia|apply (prepared_kept cls seps k (k + 1) cg cg1); auto| |].
    + intros w. pose proof (T1 w) as A1. rewrite HV, Vb, (Hev w) in A1. cbn [dadd dsub S normal_sig D] in *. lra.
    + split; [exact F'|]. split; [exact P'|]. intros w. rewrite V'. cbn [D S normal_sig] in *. lra.
Qed.
End Single.

Lemma sum_perm (g : Z -> R) l l' : Permutation l l' -> fold_right Rplus 0 (map g l) = fold_right Rplus 0 (map g l').
Proof. induction 1; cbn; lra. Qed.
Lemma C64_generic (fs : list B0) items (cg : cgraph S) mean Q nodes weights (Fe : Z -> R -> R) A v :
  r = mkRule nodes weights -> nodes <> [] -> length weights = length nodes -> Forall (fun w => 0 < w) weights ->
  mu = (fun x => nth (Z.to_nat x) mean 0) ->
  scopes_ok (S := S) fs -> (forall f, In f fs -> (length (bsc f) <= 1)%nat) ->
  NoDup items -> (forall x, In x items <-> exists f, In f fs /\ In x (bsc f)) ->
  joint_precision (map bsc fs) items Q -> joint_variance items Q Sigma -> proper_marginals determinant items mu Sigma ->
  (forall w, dsumS S (map (fval S w) fs) = fold_right Rplus 0 (map (fun e => Fe e (w e)) items) + A) ->
  build (S := S) fs = Ok cg -> computeLogNormalizingConstant cg mean Q = Ok v ->
  v = fold_right Rplus 0 (map (fun e => adaptive_quadrature nodes weights (mu e) (sqrt (/ Q e e)) (Fe e)) items) + A.
Proof.
  intros Hr Hn Hl Hw Emu Hok Hone Nd Hit J JV PM Hsplit E0 E.
  unfold computeLogNormalizingConstant in E. apply bind_Ok in E. destruct E as (cg1 & E1 & E).
  apply bind_Ok in E. destruct E as (cg2 & E2 & E).
  destruct (forward_start S Lgroup fs cg cg1 mean Q Hok E0 E1) as (its & es & cls & seps & Hel & Nits & Ncl & Hits & F0 & T0 & Fx).
  destruct (C54_good inverse determinant isnormal B0 bsc bev bd bd2 integral Hinv mean Q fs items cg cg1 Hok Nd Hit J E0 E1) as [_ C54].
  destruct (C54 Sigma JV) as [C54c _]. clear C54.
  assert (Same : forall x, In x items <-> In x its) by (intros x; rewrite Hit, Hits; reflexivity).
  assert (J' : joint_precision (map bsc fs) its Q) by (apply (joint_precision_same _ items its); auto).
  assert (JV' : joint_variance its Q Sigma) by (apply (joint_variance_same items its); auto).
  assert (PM' : proper_marginals determinant its mu Sigma).
  { intros C n N1 N2 N3. apply PM; auto. intros x Hx. apply Same, N3, Hx. }
  assert (Hone' : forall s, In s (map bsc fs) -> (length s <= 1)%nat).
  { intros s Hs. apply in_map_iff in Hs. destruct Hs as (f & <- & Hf). auto. }
  assert (P0 : prepared cg1).
  { constructor; auto. intros c Hc. destruct (C54c c Hc) as (I1 & B & C). rewrite <- Emu in B, C. constructor; auto. }
  unfold calibrateForward, calibrateInternal in E2. rewrite (f_ne _ _ _ _ _ F0) in E2.
  destruct (elim_last _ _ _ _ Hel (scopes_graph_wf _ _)) as (cl & Hcl & Hcov & Hdis).
  set (rest := findItemsDifference cl []).
  assert (Hin : forall x, In x rest <-> In x cl) by (intros x; unfold rest; rewrite findItemsDifference_In; cbn; tauto).
  assert (Ncl' : NoDup cl) by (apply Ncl; eapply nth_error_In; eauto).
  assert (Nrest : NoDup rest) by apply findItemsDifference_NoDup, Ncl'.
  assert (No : NoDup (es ++ rest)).
  { apply NoDup_join; auto; [eapply elim_es_NoDup; eauto|]. intros x H1 H2. apply Hin, Hdis in H2. auto. }
  assert (Ho : forall x, In x (es ++ rest) <-> In x its).
  { intros x. rewrite in_app_iff, Hin. split; [|intros H; now apply Hcov in H]. intros [H|H].
    - exact (elim_es_In _ _ _ _ Hel x H).
    - apply (elim_incl _ _ _ _ Hel (scopes_graph_wf _ _) cl); auto. eapply nth_error_In; eauto. }
  assert (Pe : Permutation (es ++ rest) items).
  { apply NoDup_Permutation; auto. intros x. rewrite Ho. symmetry. apply Same. }
  destruct (forward_single (map bsc fs) its Q nodes weights Fe Nits J' JV' PM' Hone' Hr Hn Hl Hw es cls seps rest Hel No
    (length seps) 0 cg1 cg2 A eq_refl F0 P0) as (F1 & P1 & V1'); [|exact E2|].
  { intros w. rewrite T0. cbn [skipn]. rewrite (sum_perm _ _ _ Pe). apply Hsplit. }
  destruct (last_cluster _ _ _ _ _ cg2 Hel F1) as (ml & Nl & Hcl' & Wl & Hlen & Tl & _).
  rewrite Hcl in Hcl'. injection Hcl' as Ecl.
  unfold cg_logNormalizingConstant in E.
  replace (Z.of_nat (length (cg_clusters cg2)) - 1)%Z with (Z.of_nat (length seps)) in E by lia.
  rewrite (zat_Ok _ _ _ Nl) in E. cbn [bind] in E.
  unfold mixed_logNormalizingConstant, margin in E. apply bind_Ok in E. destruct E as (m' & Em & E).
  rewrite <- Ecl in Em. fold rest in Em.
  assert (Kl : okn ml) by (apply (pr_ok _ P1), (nth_error_In _ _ Nl)).
  set (AQ := fun e => adaptive_quadrature nodes weights (mu e) (sqrt (/ Q e e)) (Fe e)) in *.
  assert (Ev : v = fold_right Rplus 0 (map AQ (es ++ rest)) + A).
  { rewrite map_app, fold_plus_app.
    assert (Hx : forall x y, In x cl -> In y cl -> x = y).
    { apply (proj2 (elim_sparse _ _ _ _ Hel (no_edges (map bsc fs) its Hone')) cl Hcl). }
    destruct rest as [|e [|e' l]].
    - injection Em as <-. assert (Il : m_items ml = []). { rewrite <- Ecl. destruct cl as [|x]; auto. destruct (proj2 (Hin x)). now left. }
      pose proof (evaluate_ev S ml mu Wl) as Ev. rewrite Il in Ev. cbn [map] in Ev. rewrite <- Tl, V1' in Ev.
      assert (Ok v = Ok (ev ml mu)) as H by (rewrite <- E, <- Tl, V1'; exact Ev). injection H as ->. rewrite <- Tl, V1'. cbn [skipn map fold_right D S normal_sig]. fold AQ. lra.
    - cbn [foldM] in Em. apply bind_Ok in Em. destruct Em as (m1 & Em & Em1). injection Em1 as <-.
      assert (He : In e cl) by (apply Hin; now left).
      assert (Il : m_items ml = [e]).
      { rewrite <- Ecl. destruct cl as [|x [|y l]]; [destruct He| |].
        - destruct He as [->|[]]. reflexivity.
        - exfalso. assert (x = y) by (apply Hx; cbn; auto). subst. apply NoDup_cons_iff in Ncl'. apply (proj1 Ncl'). now left. }
      assert (Hei : In e its) by (apply Ho; rewrite in_app_iff; right; now left).
      assert (Hev : forall w, ev ml w = Fe e (w e) + (A + fold_right Rplus 0 (map AQ es))).
      { intros w. rewrite <- Tl, V1'. cbn [skipn map fold_right D S normal_sig]. fold AQ. lra. }
      destruct (single_step (map bsc fs) its Q nodes weights Fe Nits J' JV' PM' Hone' Hr Hn Hl Hw ml m1 e _ Wl Kl Il Hei Hev Em) as (Im & Wm & Vm).
      pose proof (evaluate_ev S m1 mu Wm) as Ev. rewrite Im in Ev. cbn [map] in Ev.
      assert (Ok v = Ok (ev m1 mu)) as H by (rewrite <- E; exact Ev). injection H as ->. rewrite Vm. cbn [map fold_right D S normal_sig]. fold (AQ e). lra.
    - exfalso. assert (e = e') by (apply Hx; apply Hin; cbn; auto). subst. apply NoDup_cons_iff in Nrest. apply (proj1 Nrest). now left. }
  rewrite Ev. f_equal. apply sum_perm, Pe.
Qed.
End Seq.
