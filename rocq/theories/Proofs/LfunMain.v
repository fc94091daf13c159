From Coq Require Import String List ZArith Bool Arith Lia Reals Lra.
From Verif Require Import Model.Base Model.Family Model.GLMM Model.SplitFrame Model.Vectors Model.Mixed Model.MultiNormal
  Model.NormalSig Model.ClusterGraph Model.LfunSR Spec.Numbers Spec.FamilySpec Spec.GLMMSpec Spec.SplitSpec Spec.ISSpec
  Spec.BeliefSpec Spec.IntegralSpec Spec.TreeSpec Spec.MixedSpec Spec.DensitySpec Spec.TotalSpec Spec.LfunSpec
  Proofs.ListLemmas Proofs.FamilyLemmas Proofs.GLMMLemmas Proofs.GLMMMain Proofs.SubexprLemmas Proofs.SplitMain Proofs.ClusterMain Proofs.MessageLemmas Proofs.ForwardLemmas Proofs.CalibLemmas
  Proofs.MixedMain Proofs.TotalMain Proofs.SkeletonMain.
Import ListNotations.
Local Open Scope R_scope.

Section SR.
Context (inverse : rmat -> rmat) (determinant : rmat -> R) (isnormal : R -> bool).
Context (T : Type) (t_scope : T -> list Z) (t_eval : T -> rvec -> R) (t_deriv : T -> rvec -> rvec) (t_deriv2 : T -> rvec -> rmat).
Context (t_integral : (rvec -> outcome R) -> (rvec -> outcome rvec) -> (rvec -> outcome rmat) ->
                      nat -> mnormal -> list Z -> outcome T).
Context (Det : determinants 1 determinant).
Notation sig_of := (sr_sig inverse determinant isnormal T t_scope t_eval t_deriv t_deriv2 t_integral).
Notation setup := (find_lfun_SR inverse determinant isnormal T t_scope t_eval t_deriv t_deriv2 t_integral).
Notation lfun := (lfun_SR inverse determinant isnormal T t_scope t_eval t_deriv t_deriv2 t_integral).

Lemma sr_laws p : group_laws (sig_of p).
Proof. split; cbn; intros; ring. Qed.

(** * The standard normal factors *)
Definition unit_normal : mnormal := normal_given inverse determinant [0] [[1]].
Lemma det_one : determinant [[1]] = 1.
Proof.
  rewrite (de_triangular 1 determinant Det).
  - unfold prodR. cbn. unfold MatrixSpec.entry. cbn. ring.
  - split; [reflexivity|]. intros i Hi. replace i with 0%nat by lia. reflexivity.
  - intros i j Hi Hj. lia.
Qed.
Lemma phi_pos x : 0 < phi x.
Proof.
  unfold phi. apply Rmult_lt_0_compat; [apply exp_pos|]. apply Rinv_0_lt_compat, sqrt_lt_R0. pose proof PI_RGT_0. lra.
Qed.
Lemma unit_value x : normal_evaluate unit_normal [x] = ln (phi x) + (ln (sqrt (2 * PI)) - logSqrtTwoPi).
Proof.
  unfold normal_evaluate, unit_normal, normal_given, setPrecision, initializeNormalizer. cbn [no_normalizer no_mean no_precision length].
  rewrite det_one, ln_1. cbn -[phi logSqrtTwoPi ln sqrt]. unfold phi.
  assert (H : 0 < sqrt (2 * PI)). { apply sqrt_lt_R0. pose proof PI_RGT_0. lra. }
  unfold Rdiv at 3. rewrite ln_mult; [|apply exp_pos|now apply Rinv_0_lt_compat]. rewrite ln_exp, ln_Rinv by exact H. field.
Qed.
Lemma std_pos z : 0 < std_normal z.
Proof. unfold std_normal. induction z as [|x z IH]; cbn; [lra|]. apply Rmult_lt_0_compat; [apply phi_pos|exact IH]. Qed.
Lemma std_ln z : ln (std_normal z) = fold_right Rplus 0 (map (fun x => ln (phi x)) z).
Proof.
  induction z as [|x z IH]; [apply ln_1|]. cbn [map fold_right]. rewrite <- IH. unfold std_normal. cbn [map fold_right].
  apply ln_mult; [apply phi_pos|apply std_pos].
Qed.

(** * What the setup captures *)
Definition beliefs_of (ds : list (glmm_data Rnum)) (q : nat) : list (sr_belief T) :=
  map Glmm ds ++ map (fun i => Norm [Z.of_nat i] unit_normal) (seq 0 q).

Lemma setup_inv fr m family link nSL s : setup fr m family link nSL = Ok s ->
  family = "binomial"%string /\ (exists l, link = link_name l /\ sr_family _ s = mkFamily l Binomial) /\
  sr_n_fixed _ s = fr_numFixed _ fr /\ sr_n_random _ s = m /\
  exists ts, find_factorization_terms Rnum fr = Ok ts /\ mapM (make_belief inverse determinant T) ts = Ok (sr_beliefs _ s).
Proof.
  intros H. unfold find_lfun_SR in H. apply bind_Ok in H. destruct H as ([] & H1 & H).
  apply bind_Ok in H. destruct H as (ts & H2 & H). apply bind_Ok in H. destruct H as (bs & H3 & H).
  apply bind_Ok in H. destruct H as (fam & H4 & H). apply bind_Ok in H. destruct H as (cg & H5 & H).
  destruct (500000 <? _)%Z; [discriminate|]. injection H as <-. cbn [sr_family sr_n_fixed sr_n_random sr_beliefs].
  unfold check_modfr_SR in H1. destruct (String.eqb_spec family "binomial") as [->|]; [|discriminate].
  split; [reflexivity|]. split; [|eauto].
  unfold make_family, link_initialize in H4.
  destruct (String.eqb_spec link "logit") as [->|]; [exists Logit; injection H4 as <-; auto|].
  destruct (String.eqb_spec link "probit") as [->|]; [exists Probit; injection H4 as <-; auto|discriminate].
Qed.

Lemma beliefs_inv ds q bs :
  mapM (make_belief inverse determinant T) (map (GLMMTerm Rnum) ds ++ map (fun i => NormalTerm Rnum [Z.of_nat i] [0] [[1]]) (seq 0 q)) = Ok bs ->
  bs = beliefs_of ds q /\ forall d, In d ds -> exists c, glmm_new Rnum d = Ok c.
Proof.
  intros H. apply mapM_Forall2 in H. apply Forall2_app_inv_l in H. destruct H as (b1 & b2 & H1 & H2 & ->).
  unfold beliefs_of. split; [f_equal|].
  - clear H2. revert b1 H1. induction ds as [|d ds IH]; intros b1 H1; inversion H1 as [|? b ? b' Hb Hr]; subst; [reflexivity|].
    cbn in Hb. apply bind_Ok in Hb. destruct Hb as (c & _ & Hb). injection Hb as <-. cbn. f_equal. now apply IH.
  - clear H1. revert b2 H2. induction (seq 0 q) as [|i l IH]; intros b2 H2; inversion H2 as [|? b ? b' Hb Hr]; subst; [reflexivity|].
    cbn in Hb. injection Hb as <-. cbn. f_equal. now apply IH.
  - clear H2. intros d Hd. revert b1 H1. induction ds as [|d' ds IH]; intros b1 H1; [destruct Hd|]. inversion H1 as [|? b ? b' Hb Hr]; subst.
    destruct Hd as [<-|Hd]; [|now apply (IH Hd b')]. cbn in Hb. apply bind_Ok in Hb. destruct Hb as (c & Hc & _). eauto.
Qed.

(** * Values *)
Section Values.
Context (d : glmm_data Rnum) (Sh : GLMMSpec.shaped d) (p : GLMM.params Rnum) (c : cache Rnum) (Hc : glmm_new Rnum d = Ok c).
Context (Hth : in_range (length (p_theta _ p)) (gd_Lind _ d)).
Context (Hbe : length (p_beta _ p) = gd_numFixed _ d).
Context (l : Family.link) (Hl : p_family _ p = mkFamily l Binomial) (P : R -> R) (HP : inverse_link l P).

Lemma glmm_value (x : rvec) : length x = length (gd_items _ d) ->
  beval (sig_of p) (Glmm d) x = factor_loglik P d (p_beta _ p) (p_theta _ p) x.
Proof.
  intros Hx. cbn [sr_sig normal_sig beval sr_eval]. rewrite Hc. cbn [bind].
  rewrite (evaluate_value d Sh p Hth Hbe l Hl P (link_mn l P HP) c x (new_consistent Rnum d c Hc) Hx). reflexivity.
Qed.
Lemma glmm_shaped : MixedSpec.shaped (sig_of p) (Glmm d).
Proof.
  intros w. cbn [sr_sig normal_sig bscope sr_scope bderiv sr_deriv bderiv2 sr_deriv2]. rewrite Hc. cbn [bind].
  set (x := map w (gd_items _ d)). assert (Hx : length x = length (gd_items _ d)) by apply map_length.
  destruct (grad_value d Sh p Hth Hbe l Hl c x (new_consistent Rnum d c Hc) Hx) as (g & Eg & Lg & _).
  destruct (hess_value d Sh p Hth Hbe l Hl c x (new_consistent Rnum d c Hc) Hx) as (h & Eh & Lh & Rh & _).
  change (map w (gd_items Rnum d)) with x. rewrite Eg, Eh. cbn [bind ok_or fst]. split; [exact Lg|]. split; [exact Lh|].
  intros row Hrow. apply (In_nth _ _ []) in Hrow. destruct Hrow as (r & Hr & <-). apply Rh. rewrite <- Lh. exact Hr.
Qed.
Lemma glmm_ready : ready T p (Glmm d) = Ok tt.
Proof.
  unfold ready. rewrite Hc. cbn [bind]. rewrite prepare_prepared by (exact Reqb_eq || exact (new_consistent Rnum d c Hc)).
  rewrite (prepared_ok d Sh p Hth Hbe). reflexivity.
Qed.
End Values.

Lemma lsum_app (a b : list R) : fold_right Rplus 0 (a ++ b) = fold_right Rplus 0 a + fold_right Rplus 0 b.
Proof. induction a; cbn; [ring|]. rewrite IHa. ring. Qed.

(** The factors of [fr] have the product that the observations of [fr'] have. *)
Definition split_as (fr fr' : frame Rnum) : Prop := cs_rows (fr_Zt _ fr') = cs_rows (fr_Zt _ fr) /\
  exists ds, find_factorization_terms Rnum fr =
    Ok (map (GLMMTerm Rnum) ds ++ map (fun i => NormalTerm Rnum [Z.of_nat i] [0] [[1]]) (seq 0 (cs_rows (fr_Zt _ fr)))) /\
  (forall d, In d ds -> GLMMSpec.shaped d /\ gd_numFixed _ d = fr_numFixed _ fr /\ NoDup (gd_items _ d) /\ gd_items _ d <> [] /\
     (forall i, In i (gd_items _ d) -> (0 <= i < Z.of_nat (cs_rows (fr_Zt _ fr)))%Z) /\
     forall m, (forall l, In l (fr_Lind _ fr) -> (1 <= l <= Z.of_nat m)%Z) -> in_range m (gd_Lind _ d)) /\
  forall P beta theta u, length u = cs_rows (fr_Zt _ fr) ->
    fold_right Rplus 0 (map (fun d => factor_loglik P d beta theta (restrict u (gd_items _ d))) ds) = factor_loglik P (whole fr') beta theta u.
Lemma split_same fr : regular fr -> no_empty fr -> (1 <= length (cs_cols (fr_Zt _ fr)))%nat -> split_as fr fr.
Proof. intros Reg Ne Obs. split; [reflexivity|]. exact (C37_terms_main fr Reg Ne Obs). Qed.

Section Run.
Context (fr fr' : frame Rnum) (m : nat) (nSL : nat) (l : Family.link) (P : R -> R) (s : sr T).
Context (Sp : split_as fr fr') (Hm : (1 <= m)%nat).
Context (HLind : forall i, In i (fr_Lind _ fr) -> (1 <= i <= Z.of_nat m)%Z).
Context (HP : inverse_link l P).
Context (Hs : setup fr m "binomial" (link_name l) nSL = Ok s).
Context (pars : list R) (Hp : length pars = (fr_numFixed _ fr + m)%nat).
Let p := pars_of T s pars.
Let theta := firstn m pars.
Let beta := skipn m pars.
Let q := cs_rows (fr_Zt _ fr).

Lemma fam_link : sr_family _ s = mkFamily l Binomial.
Proof.
  destruct (setup_inv _ _ _ _ _ _ Hs) as (_ & (l' & E & F) & _). rewrite F. destruct l, l'; try discriminate; reflexivity.
Qed.
Lemma p_parts_as : p_theta _ p = theta /\ p_beta _ p = beta /\ p_family _ p = mkFamily l Binomial.
Proof.
  destruct (setup_inv _ _ _ _ _ _ Hs) as (_ & _ & _ & E & _). unfold p, pars_of, leading, trailing. cbn [p_theta p_beta p_family].
  rewrite E, fam_link. replace (Nat.max 1 m) with m by lia. auto.
Qed.

Lemma run_beliefs_as : exists ds, sr_beliefs _ s = beliefs_of ds q /\
  (forall d, In d ds -> GLMMSpec.shaped d /\ (exists c, glmm_new Rnum d = Ok c) /\ in_range (length (p_theta _ p)) (gd_Lind _ d) /\
     length (p_beta _ p) = gd_numFixed _ d /\ NoDup (gd_items _ d) /\ forall i, In i (gd_items _ d) -> (0 <= i < Z.of_nat q)%Z) /\
  forall u, length u = q -> fold_right Rplus 0 (map (fun d => factor_loglik P d beta theta (restrict u (gd_items _ d))) ds) =
    factor_loglik P (whole fr') beta theta u.
Proof.
  destruct (setup_inv _ _ _ _ _ _ Hs) as (_ & _ & Nf & Nr & ts & Ht & Hb).
  destruct Sp as (_ & ds & Et & Hd & Hsum).
  rewrite Et in Ht. injection Ht as <-. apply beliefs_inv in Hb. destruct Hb as [Eb Hc].
  exists ds. split; [exact Eb|]. split; [|intros u Hu; apply Hsum; exact Hu].
  intros d Hin. destruct (Hd d Hin) as (Sh & Nfd & Nd & _ & Hi & Hr). destruct p_parts_as as (E1 & E2 & _). rewrite E1, E2.
  split; [exact Sh|]. split; [auto|]. split; [|split; [|split; [exact Nd|exact Hi]]].
  - unfold theta. rewrite firstn_length, Hp, Nat.min_l by lia. apply Hr, HLind.
  - unfold beta. rewrite skipn_length, Hp, Nfd. lia.
Qed.

Lemma restrict_map (w : Z -> R) items : (forall i, In i items -> (0 <= i < Z.of_nat q)%Z) -> restrict (map w (effects fr)) items = map w items.
Proof.
  intros H. unfold restrict. apply map_ext_in. intros i Hi. specialize (H i Hi). unfold effects. fold q. rewrite map_map.
  rewrite (nth_indep _ 0 (w (Z.of_nat 0))) by (rewrite map_length, seq_length; lia).
  rewrite (map_nth (fun k => w (Z.of_nat k))), seq_nth by lia. f_equal. lia.
Qed.

Lemma effects_as : effects fr' = effects fr.
Proof. unfold effects. now rewrite (proj1 Sp). Qed.

Lemma run_value_as w : dsumS (sig_of p) (map (fval (sig_of p) w) (sr_beliefs _ s)) =
  INR q * (ln (sqrt (2 * PI)) - logSqrtTwoPi) + joint_density P fr' beta theta w.
Proof.
  destruct run_beliefs_as as (ds & Eb & Hd & Hsum). rewrite Eb. unfold beliefs_of. rewrite map_app.
  unfold dsumS. cbn [sr_sig normal_sig dadd dzero D]. etransitivity; [apply lsum_app|].
  unfold joint_density. rewrite effects_as. rewrite <- Hsum by (unfold effects; rewrite !map_length, seq_length; reflexivity). rewrite !map_map.
  match goal with |- ?a + ?b = ?x + (?y + ?z) => cut (a = y /\ b = x + z); [intros [-> ->]; ring|] end. split.
  - f_equal. apply map_ext_in. intros d Hin. destruct (Hd d Hin) as (Sh & (c & Hc) & Ht & Hb & Nd & Hi). destruct p_parts_as as (E1 & E2 & E3).
    unfold fval. rewrite restrict_map by exact Hi.
    etransitivity; [apply (glmm_value d Sh p c Hc Ht Hb l E3 P HP); cbn; apply map_length|]. rewrite E1, E2. reflexivity.
  - rewrite std_ln. unfold effects. fold q. rewrite map_map, map_map.
    assert (G : forall L : list nat, fold_right Rplus 0 (map (fun i => fval (sig_of p) w (Norm [Z.of_nat i] unit_normal)) L) =
      INR (length L) * (ln (sqrt (2 * PI)) - logSqrtTwoPi) + fold_right Rplus 0 (map (fun i => ln (phi (w (Z.of_nat i)))) L)).
    { induction L as [|i L IH]; [cbn; ring|]. cbn [map fold_right length]. rewrite S_INR.
      etransitivity; [apply (f_equal2 Rplus eq_refl IH)|].
      unfold fval. cbn [sr_sig normal_sig beval sr_eval bscope sr_scope map]. rewrite unit_value. ring. }
    specialize (G (seq 0 q)). rewrite seq_length in G. exact G.
Qed.

Lemma run_scopes_as : @scopes_ok (sig_of p) (sr_beliefs _ s) /\
  (forall x, In x (effects fr) <-> exists f, In f (sr_beliefs _ s) /\ In x (bscope (sig_of p) f)) /\
  (forall f x, In f (sr_beliefs _ s) -> In x (bscope (sig_of p) f) -> (0 <= x < Z.of_nat q)%Z) /\
  (forall f, In f (sr_beliefs _ s) -> MixedSpec.shaped (sig_of p) f) /\
  mapM (ready T p) (sr_beliefs _ s) = Ok (map (fun _ => tt) (sr_beliefs _ s)).
Proof.
  destruct run_beliefs_as as (ds & Eb & Hd & _). rewrite Eb.
  assert (Cases : forall f, In f (beliefs_of ds q) -> (exists d, f = Glmm d /\ In d ds) \/ exists i, f = Norm [Z.of_nat i] unit_normal /\ (i < q)%nat).
  { intros f Hf. unfold beliefs_of in Hf. apply in_app_or in Hf. destruct Hf as [Hf|Hf]; apply in_map_iff in Hf; destruct Hf as (a & <- & Ha); [eauto|].
    right. exists a. apply in_seq in Ha. split; [reflexivity|lia]. }
  assert (Range : forall f x, In f (beliefs_of ds q) -> In x (bscope (sig_of p) f) -> (0 <= x < Z.of_nat q)%Z).
  { intros f x Hf. destruct (Cases f Hf) as [(d & -> & Hin)|(i & -> & Hi)]; cbn.
    - destruct (Hd d Hin) as (_ & _ & _ & _ & _ & H). apply H.
    - intros [<-|[]]. lia. }
  split; [|split; [|split; [|split]]].
  - intros f Hf. destruct (Cases f Hf) as [(d & -> & Hin)|(i & -> & Hi)]; cbn.
    + now apply (Hd d).
    + constructor; [intros []|constructor].
  - intros x. split.
    + unfold effects. fold q. intros H. apply in_map_iff in H. destruct H as (i & <- & Hi). exists (Norm [Z.of_nat i] unit_normal).
      split; [|now left]. unfold beliefs_of. apply in_or_app. right. apply in_map_iff. eauto.
    + intros (f & Hf & Hx). specialize (Range f x Hf Hx). unfold effects. fold q. apply in_map_iff. exists (Z.to_nat x).
      split; [lia|]. apply in_seq. lia.
  - exact Range.
  - intros f Hf. destruct (Cases f Hf) as [(d & -> & Hin)|(i & -> & Hi)].
    + destruct (Hd d Hin) as (Sh & (c & Hc) & Ht & Hb & _). destruct p_parts_as as (_ & _ & E3). exact (glmm_shaped d Sh p c Hc Ht Hb l E3).
    + intros w. cbn. split; [reflexivity|]. split; [reflexivity|]. intros row [<-|[]]. reflexivity.
  - apply (mapM_all (ready T p) (fun _ => tt)). intros f Hf. destruct (Cases f Hf) as [(d & -> & Hin)|(i & -> & Hi)]; [|reflexivity].
    destruct (Hd d Hin) as (Sh & (c & Hc) & Ht & Hb & _). destruct p_parts_as as (_ & _ & E3). exact (glmm_ready d Sh p c Hc Ht Hb).
Qed.
End Run.

Section Same.
Context (fr : frame Rnum) (m : nat) (nSL : nat) (l : Family.link) (P : R -> R) (s : sr T).
Context (Reg : regular fr) (Ne : no_empty fr) (Obs : (1 <= length (cs_cols (fr_Zt _ fr)))%nat) (Hm : (1 <= m)%nat).
Context (HLind : forall i, In i (fr_Lind _ fr) -> (1 <= i <= Z.of_nat m)%Z).
Context (HP : inverse_link l P).
Context (Hs : setup fr m "binomial" (link_name l) nSL = Ok s).
Context (pars : list R) (Hp : length pars = (fr_numFixed _ fr + m)%nat).
Let p := pars_of T s pars.
Let theta := firstn m pars.
Let beta := skipn m pars.
Let q := cs_rows (fr_Zt _ fr).

Lemma fam_link' : sr_family _ s = mkFamily l Binomial.
Proof.
  destruct (setup_inv _ _ _ _ _ _ Hs) as (_ & (l' & E & F) & _). rewrite F. destruct l, l'; try discriminate; reflexivity.
Qed.
Lemma p_parts : p_theta _ p = theta /\ p_beta _ p = beta /\ p_family _ p = mkFamily l Binomial.
Proof.
  destruct (setup_inv _ _ _ _ _ _ Hs) as (_ & _ & _ & E & _). unfold p, pars_of, leading, trailing. cbn [p_theta p_beta p_family].
  rewrite E, fam_link'. replace (Nat.max 1 m) with m by lia. auto.
Qed.

Lemma run_value w : dsumS (sig_of p) (map (fval (sig_of p) w) (sr_beliefs _ s)) =
  INR q * (ln (sqrt (2 * PI)) - logSqrtTwoPi) + joint_density P fr beta theta w.
Proof. exact (run_value_as fr fr m nSL l P s (split_same fr Reg Ne Obs) Hm HLind HP Hs pars Hp w). Qed.

Lemma run_scopes : @scopes_ok (sig_of p) (sr_beliefs _ s) /\
  (forall x, In x (effects fr) <-> exists f, In f (sr_beliefs _ s) /\ In x (bscope (sig_of p) f)) /\
  (forall f x, In f (sr_beliefs _ s) -> In x (bscope (sig_of p) f) -> (0 <= x < Z.of_nat q)%Z) /\
  (forall f, In f (sr_beliefs _ s) -> MixedSpec.shaped (sig_of p) f) /\
  mapM (ready T p) (sr_beliefs _ s) = Ok (map (fun _ => tt) (sr_beliefs _ s)).
Proof. exact (run_scopes_as fr fr m nSL l P s (split_same fr Reg Ne Obs) Hm HLind HP Hs pars Hp). Qed.
End Same.

Lemma effects_nodup fr : NoDup (effects fr).
Proof. unfold effects. apply FinFun.Injective_map_NoDup; [intros a b; lia|apply seq_NoDup]. Qed.

Lemma C56_as : forall fr fr' m l P nSL s, split_as fr fr' -> (1 <= m)%nat ->
  (forall i, In i (fr_Lind _ fr) -> (1 <= i <= Z.of_nat m)%Z) -> inverse_link l P ->
  setup fr m "binomial" (link_name l) nSL = Ok s ->
  forall laplace pars v, lfun laplace s pars = Ok v ->
  length pars = (fr_numFixed _ fr + m)%nat /\ v <= fst (fst (laplace pars)) / 2 /\
  forall LI, exact_integral (sig_of (GLMM.mkParams Rnum (firstn m pars) (skipn m pars) (mkFamily l Binomial))) LI ->
    fubini (sig_of (GLMM.mkParams Rnum (firstn m pars) (skipn m pars) (mkFamily l Binomial))) LI ->
  forall w, v = INR (cs_rows (fr_Zt _ fr)) * (ln (sqrt (2 * PI)) - logSqrtTwoPi) +
    iterated (sig_of (GLMM.mkParams Rnum (firstn m pars) (skipn m pars) (mkFamily l Binomial))) LI (effects fr)
      (joint_density P fr' (skipn m pars) (firstn m pars)) w.
Proof.
  intros fr fr' m l P nSL s Sp Hm HLind HP Hs laplace pars v H.
  destruct (setup_inv _ _ _ _ _ _ Hs) as (_ & _ & Nf & Nr & _).
  unfold lfun_SR in H. rewrite Nf, Nr in H. destruct (Nat.eqb_spec (length pars) (fr_numFixed Rnum fr + m)) as [Hp|]; [|discriminate]. cbn [negb] in H.
  split; [exact Hp|]. destruct (laplace pars) as ((ll & mean) & prec) eqn:El.
  apply bind_Ok in H. destruct H as (cg & Hg & H). apply bind_Ok in H. destruct H as (us & _ & H). apply bind_Ok in H. destruct H as (v' & Hv & H).
  unfold Rltb in H. destruct (Rlt_dec (ll / 2) v') as [|Hle]; [discriminate|]. injection H as ->. cbn [fst].
  split; [apply Rnot_lt_le, Hle|].
  assert (Ep : pars_of T s pars = GLMM.mkParams Rnum (firstn m pars) (skipn m pars) (mkFamily l Binomial)).
  { destruct (p_parts_as fr m nSL l P s Hm HP Hs pars Hp) as (E1 & E2 & E3). destruct (pars_of T s pars) as [a b f]. cbn in E1, E2, E3. now subst. }
  rewrite <- Ep. intros LI X Fu w.
  pose proof (C11_main (sig_of (pars_of T s pars)) LI (sr_laws _) X (sr_beliefs _ s) cg mean prec v
    (proj1 (run_scopes_as fr fr' m nSL l P s Sp Hm HLind HP Hs pars Hp)) Hg Hv) as (_ & G).
  rewrite (G Fu (effects fr) (effects_nodup fr) (proj1 (proj2 (run_scopes_as fr fr' m nSL l P s Sp Hm HLind HP Hs pars Hp))) w).
  etransitivity; [apply (iterated_ext (sig_of (pars_of T s pars)) LI (ei_ext _ _ X)); intros w'; apply (run_value_as fr fr' m nSL l P s Sp Hm HLind HP Hs pars Hp)|].
  exact (iterated_shift (sig_of (pars_of T s pars)) LI X (fun _ => INR (cs_rows (fr_Zt Rnum fr)) * (ln (sqrt (2 * PI)) - logSqrtTwoPi))
    (joint_density P fr' (skipn m pars) (firstn m pars)) (effects fr) (fun _ _ _ _ => eq_refl) w).
Qed.

Lemma C56_main : forall fr m l P nSL s, regular fr -> no_empty fr -> (1 <= length (cs_cols (fr_Zt _ fr)))%nat -> (1 <= m)%nat ->
  (forall i, In i (fr_Lind _ fr) -> (1 <= i <= Z.of_nat m)%Z) -> inverse_link l P ->
  setup fr m "binomial" (link_name l) nSL = Ok s ->
  forall laplace pars v, lfun laplace s pars = Ok v ->
  length pars = (fr_numFixed _ fr + m)%nat /\ v <= fst (fst (laplace pars)) / 2 /\
  forall LI, exact_integral (sig_of (GLMM.mkParams Rnum (firstn m pars) (skipn m pars) (mkFamily l Binomial))) LI ->
    fubini (sig_of (GLMM.mkParams Rnum (firstn m pars) (skipn m pars) (mkFamily l Binomial))) LI ->
  forall w, v = INR (cs_rows (fr_Zt _ fr)) * (ln (sqrt (2 * PI)) - logSqrtTwoPi) +
    iterated (sig_of (GLMM.mkParams Rnum (firstn m pars) (skipn m pars) (mkFamily l Binomial))) LI (effects fr)
      (joint_density P fr (skipn m pars) (firstn m pars)) w.
Proof.
  intros fr m l P nSL s Reg Ne Obs. exact (C56_as fr fr m l P nSL s (split_same fr Reg Ne Obs)).
Qed.

(** * Failures *)
Lemma setMean_len subset : forall (t src : rvec), length (setVectorSubset t src subset) = length t.
Proof. induction subset as [|k subset IH]; intros t [|x src]; cbn; auto. now rewrite IH, upd_length. Qed.
Lemma mn_sizes_ok B0 sc ev d1 d2 it : normal_sizes (normal_sig inverse determinant isnormal B0 sc ev d1 d2 it).
Proof.
  constructor; cbn [normal_sig mn_mean mn_given mn_mul mn_div mn_marginal].
  - reflexivity.
  - intros a b subset. cbn. apply setMean_len.
  - intros a b subset. cbn. apply setMean_len.
  - intros a subset. unfold computeMarginal, setVariance. cbn [no_mean].
    destruct (Nat.ltb 0 (length subset)); cbn; [unfold vsubset; apply map_length|apply repeat_length].
Qed.

(** The graph of the setup has the width of the graph that is used. *)
Lemma setup_width fr m family link nSL s p cg : setup fr m family link nSL = Ok s -> @scopes_ok (sig_of p) (sr_beliefs _ s) ->
  @build (sig_of p) (sr_beliefs _ s) = Ok cg -> (width cg ^ Z.of_nat (2 * nSL) <= 500000)%Z.
Proof.
  intros H Sc Eb. unfold find_lfun_SR in H. apply bind_Ok in H. destruct H as ([] & _ & H).
  apply bind_Ok in H. destruct H as (ts & _ & H). apply bind_Ok in H. destruct H as (bs & _ & H).
  apply bind_Ok in H. destruct H as (fam & _ & H). apply bind_Ok in H. destruct H as (cg0 & E0 & H).
  destruct (Z.ltb_spec 500000 (width cg0 ^ Z.of_nat (2 * nSL))) as [|Hw]; [discriminate|]. injection H as <-. cbn [sr_beliefs] in *.
  rewrite <- (width_same (sig_of (GLMM.mkParams Rnum [] [] fam)) (sig_of p) cg0 cg); [exact Hw|].
  apply (build_same (sig_of (GLMM.mkParams Rnum [] [] fam)) (sig_of p) bs bs); auto.
Qed.

Lemma lfun_general_as : forall fr fr' m l nSL s, split_as fr fr' -> (1 <= m)%nat ->
  (forall i, In i (fr_Lind _ fr) -> (1 <= i <= Z.of_nat m)%Z) ->
  setup fr m "binomial" (link_name l) nSL = Ok s ->
  forall (pars mean : list R) prec,
  (length pars <> (fr_numFixed _ fr + m)%nat -> forall laplace, lfun laplace s pars = Throw RuntimeError) /\
  ((forall (fs : list (sr_belief T)) (cg : @cgraph (sig_of (GLMM.mkParams Rnum (firstn m pars) (skipn m pars) (mkFamily l Binomial)))) (mean : list R) prec,
     @scopes_ok (sig_of (GLMM.mkParams Rnum (firstn m pars) (skipn m pars) (mkFamily l Binomial))) fs ->
     (forall f, In f fs -> shaped (sig_of (GLMM.mkParams Rnum (firstn m pars) (skipn m pars) (mkFamily l Binomial))) f) ->
     (forall f x, In f fs -> In x (sr_scope T t_scope f) -> (0 <= x < Z.of_nat (length mean))%Z) ->
     @build (sig_of (GLMM.mkParams Rnum (firstn m pars) (skipn m pars) (mkFamily l Binomial))) fs = Ok cg ->
     (width cg ^ Z.of_nat (2 * nSL) <= 500000)%Z ->
     (exists v, computeLogNormalizingConstant cg mean prec = Ok v) \/
     (computeLogNormalizingConstant cg mean prec = Throw RuntimeError /\ exists x, isnormal x = false)) ->
   length pars = (fr_numFixed _ fr + m)%nat -> length mean = cs_rows (fr_Zt _ fr) ->
   (exists v, forall laplace ll, laplace pars = (ll, mean, prec) ->
      (v <= ll / 2 -> lfun laplace s pars = Ok v) /\ (ll / 2 < v -> lfun laplace s pars = Throw RuntimeError)) \/
   ((exists x, isnormal x = false) /\
    forall laplace ll, laplace pars = (ll, mean, prec) -> lfun laplace s pars = Throw RuntimeError)).
Proof.
  intros fr fr' m l nSL s Sp Hm HLind Hs pars mean prec.
  assert (HP : exists P, inverse_link l P).
  { destruct l; [exists logistic; left; auto|exists normal_cdf; right; split; [reflexivity|apply normal_cdf_is]]. }
  destruct HP as (P & HP).
  destruct (setup_inv _ _ _ _ _ _ Hs) as (_ & _ & Nf & Nr & _).
  split.
  { intros Hp laplace. unfold lfun_SR. rewrite Nf, Nr. destruct (Nat.eqb_spec (length pars) (fr_numFixed Rnum fr + m)) as [|_]; [contradiction|reflexivity]. }
  intros HI Hp Hmean.
  assert (Ep : pars_of T s pars = GLMM.mkParams Rnum (firstn m pars) (skipn m pars) (mkFamily l Binomial)).
  { destruct (p_parts_as fr m nSL l P s Hm HP Hs pars Hp) as (E1 & E2 & E3). destruct (pars_of T s pars) as [a b f]. cbn in E1, E2, E3. now subst. }
  destruct (run_scopes_as fr fr' m nSL l P s Sp Hm HLind HP Hs pars Hp) as (Sc & _ & Rg & Sh & Rd).
  rewrite Ep in Sc, Rg, Sh, Rd.
  set (p := GLMM.mkParams Rnum (firstn m pars) (skipn m pars) (mkFamily l Binomial)) in *.
  destruct (build_ok (sig_of p) (sr_beliefs _ s) Sc) as (cg & _ & _ & _ & _ & Hg & _).
  assert (Hg' : sr_graph inverse determinant isnormal T t_scope t_eval t_deriv t_deriv2 t_integral p (sr_beliefs _ s) = Ok cg) by exact Hg.
  assert (Run : forall laplace ll, laplace pars = (ll, mean, prec) ->
    lfun laplace s pars = (l_SR <- @computeLogNormalizingConstant (sig_of p) cg mean prec ;; if Rltb (ll / 2) l_SR then Throw RuntimeError else Ok l_SR)).
  { intros laplace ll El. unfold lfun_SR. rewrite Nf, Nr.
    destruct (Nat.eqb_spec (length pars) (fr_numFixed Rnum fr + m)) as [_|]; [cbn [negb]|contradiction].
    rewrite El, Ep, Hg'. cbn [bind]. rewrite Rd. reflexivity. }
  destruct (HI (sr_beliefs _ s) cg mean prec Sc Sh) as [(v & Hv)|[Hv Hx]].
  - intros f x Hf Hx. exact (eq_ind_r (fun n => (0 <= x < Z.of_nat n)%Z) (Rg f x Hf Hx) Hmean).
  - exact Hg.
  - exact (setup_width _ _ _ _ _ _ _ _ Hs Sc Hg).
  - left. exists v. intros laplace ll El. rewrite (Run laplace ll El), Hv. cbn [bind]. unfold Rltb.
    destruct (Rlt_dec (ll / 2) v) as [Hlt|Hn]; (split; intros H; [|]); try reflexivity.
    + exfalso. apply (Rlt_irrefl v), (Rle_lt_trans _ _ _ H Hlt).
    + contradiction.
  - right. split; [exact Hx|]. intros laplace ll El. rewrite (Run laplace ll El), Hv. reflexivity.
Qed.

Lemma lfun_general : forall fr m l nSL s, regular fr -> no_empty fr -> (1 <= length (cs_cols (fr_Zt _ fr)))%nat -> (1 <= m)%nat ->
  (forall i, In i (fr_Lind _ fr) -> (1 <= i <= Z.of_nat m)%Z) ->
  setup fr m "binomial" (link_name l) nSL = Ok s ->
  forall (pars mean : list R) prec,
  (length pars <> (fr_numFixed _ fr + m)%nat -> forall laplace, lfun laplace s pars = Throw RuntimeError) /\
  ((forall (fs : list (sr_belief T)) (cg : @cgraph (sig_of (GLMM.mkParams Rnum (firstn m pars) (skipn m pars) (mkFamily l Binomial)))) (mean : list R) prec,
     @scopes_ok (sig_of (GLMM.mkParams Rnum (firstn m pars) (skipn m pars) (mkFamily l Binomial))) fs ->
     (forall f, In f fs -> shaped (sig_of (GLMM.mkParams Rnum (firstn m pars) (skipn m pars) (mkFamily l Binomial))) f) ->
     (forall f x, In f fs -> In x (sr_scope T t_scope f) -> (0 <= x < Z.of_nat (length mean))%Z) ->
     @build (sig_of (GLMM.mkParams Rnum (firstn m pars) (skipn m pars) (mkFamily l Binomial))) fs = Ok cg ->
     (width cg ^ Z.of_nat (2 * nSL) <= 500000)%Z ->
     (exists v, computeLogNormalizingConstant cg mean prec = Ok v) \/
     (computeLogNormalizingConstant cg mean prec = Throw RuntimeError /\ exists x, isnormal x = false)) ->
   length pars = (fr_numFixed _ fr + m)%nat -> length mean = cs_rows (fr_Zt _ fr) ->
   (exists v, forall laplace ll, laplace pars = (ll, mean, prec) ->
      (v <= ll / 2 -> lfun laplace s pars = Ok v) /\ (ll / 2 < v -> lfun laplace s pars = Throw RuntimeError)) \/
   ((exists x, isnormal x = false) /\
    forall laplace ll, laplace pars = (ll, mean, prec) -> lfun laplace s pars = Throw RuntimeError)).
Proof.
  intros fr m l nSL s Reg Ne Obs. exact (lfun_general_as fr fr m l nSL s (split_same fr Reg Ne Obs)).
Qed.

(** With one variance parameter, the setup fails only if it is too complex. *)
Lemma C57_lfun_as : forall fr fr' m l nSL s, split_as fr fr' -> (1 <= m)%nat ->
  (forall i, In i (fr_Lind _ fr) -> (1 <= i <= Z.of_nat m)%Z) ->
  setup fr m "binomial" (link_name l) nSL = Ok s ->
  (forall f d d2 k n items b, t_integral f d d2 k n items = Ok b -> t_scope b = items) ->
  forall (pars mean : list R) prec,
  (length pars <> (fr_numFixed _ fr + m)%nat -> forall laplace, lfun laplace s pars = Throw RuntimeError) /\
  (integrates (sig_of (GLMM.mkParams Rnum (firstn m pars) (skipn m pars) (mkFamily l Binomial))) ->
   length pars = (fr_numFixed _ fr + m)%nat -> length mean = cs_rows (fr_Zt _ fr) ->
   (exists v, forall laplace ll, laplace pars = (ll, mean, prec) ->
      (v <= ll / 2 -> lfun laplace s pars = Ok v) /\ (ll / 2 < v -> lfun laplace s pars = Throw RuntimeError)) \/
   ((exists x, isnormal x = false) /\
    forall laplace ll, laplace pars = (ll, mean, prec) -> lfun laplace s pars = Throw RuntimeError)).
Proof.
  intros fr fr' m l nSL s Sp Hm HLind Hs Hsc pars mean prec.
  destruct (lfun_general_as fr fr' m l nSL s Sp Hm HLind Hs pars mean prec) as [H1 H2].
  split; [exact H1|]. intros HI. apply H2. intros fs cg mean' prec' A1 A2 A3 A4 _. revert A1 A2 A3 A4.
  apply (C57_main _ (sr_laws _) (mn_sizes_ok _ _ _ _ _ _)); [|exact HI].
  intros f d d2 k n items b E. cbn in E. apply bind_Ok in E. destruct E as (t & E & E'). injection E' as <-. cbn. exact (Hsc _ _ _ _ _ _ _ E).
Qed.

Lemma C57_lfun_main : forall fr m l nSL s, regular fr -> no_empty fr -> (1 <= length (cs_cols (fr_Zt _ fr)))%nat -> (1 <= m)%nat ->
  (forall i, In i (fr_Lind _ fr) -> (1 <= i <= Z.of_nat m)%Z) ->
  setup fr m "binomial" (link_name l) nSL = Ok s ->
  (forall f d d2 k n items b, t_integral f d d2 k n items = Ok b -> t_scope b = items) ->
  forall (pars mean : list R) prec,
  (length pars <> (fr_numFixed _ fr + m)%nat -> forall laplace, lfun laplace s pars = Throw RuntimeError) /\
  (integrates (sig_of (GLMM.mkParams Rnum (firstn m pars) (skipn m pars) (mkFamily l Binomial))) ->
   length pars = (fr_numFixed _ fr + m)%nat -> length mean = cs_rows (fr_Zt _ fr) ->
   (exists v, forall laplace ll, laplace pars = (ll, mean, prec) ->
      (v <= ll / 2 -> lfun laplace s pars = Ok v) /\ (ll / 2 < v -> lfun laplace s pars = Throw RuntimeError)) \/
   ((exists x, isnormal x = false) /\
    forall laplace ll, laplace pars = (ll, mean, prec) -> lfun laplace s pars = Throw RuntimeError)).
Proof.
  intros fr m l nSL s Reg Ne Obs. exact (C57_lfun_as fr fr m l nSL s (split_same fr Reg Ne Obs)).
Qed.

Lemma C57_setup_main : forall fr l nSL, regular fr -> no_empty fr -> (1 <= length (cs_cols (fr_Zt _ fr)))%nat ->
  (forall i, In i (fr_Lind _ fr) -> i = 1%Z) ->
  exists ts bs cg, find_factorization_terms Rnum fr = Ok ts /\ mapM (make_belief inverse determinant T) ts = Ok bs /\
   sr_graph inverse determinant isnormal T t_scope t_eval t_deriv t_deriv2 t_integral (GLMM.mkParams Rnum [] [] (mkFamily l Binomial)) bs = Ok cg /\
   ((width cg ^ Z.of_nat (2 * nSL) <= 500000)%Z /\ setup fr 1 "binomial" (link_name l) nSL = Ok (mkSR _ bs (mkFamily l Binomial) (fr_numFixed _ fr) 1) \/
    (500000 < width cg ^ Z.of_nat (2 * nSL))%Z /\ setup fr 1 "binomial" (link_name l) nSL = Throw RuntimeError).
Proof.
  intros fr l nSL Reg Ne Obs HLind. destruct (C37_terms_main fr Reg Ne Obs) as (ds & Et & Hd & _).
  assert (Hb : mapM (make_belief inverse determinant T) (map (GLMMTerm Rnum) ds ++ map (fun i => NormalTerm Rnum [Z.of_nat i] [0] [[1]]) (seq 0 (cs_rows (fr_Zt Rnum fr))))
    = Ok (beliefs_of ds (cs_rows (fr_Zt _ fr)))).
  { apply mapM_Forall2. unfold beliefs_of. apply Forall2_app.
    - revert Hd. clear Et. induction ds as [|d ds IH]; intros Hd; cbn [map]; [constructor|]. constructor; [|apply IH; intros d0 Hd0; apply Hd; now right].
      destruct (Hd d ltac:(now left)) as (Sh & _ & _ & Hne & _ & Hr).
      destruct (C35_new_main d Sh) as [Hc _]. destruct Hc as (c & Hc); [|cbn; rewrite Hc; reflexivity].
      intros i Hi. destruct (Hr 1%nat) with (i := i) as [H1 H2]; [intros j Hj; rewrite (HLind j Hj); lia|exact Hi|].
      assert (length (gd_items Rnum d) <> 0)%nat by (intros H; apply length_zero_iff_nil in H; auto). lia.
    - clear Et Hd. induction (seq 0 (cs_rows (fr_Zt Rnum fr))) as [|i L IH]; cbn [map]; [apply Forall2_nil|apply Forall2_cons; [reflexivity|exact IH]]. }
  eexists. exists (beliefs_of ds (cs_rows (fr_Zt _ fr))).
  set (p := GLMM.mkParams Rnum [] [] (mkFamily l Binomial)).
  destruct (build_ok (sig_of p) (beliefs_of ds (cs_rows (fr_Zt _ fr)))) as (cg & _ & _ & _ & _ & Hg & _).
  { intros f Hf. unfold beliefs_of in Hf. apply in_app_or in Hf. destruct Hf as [Hf|Hf]; apply in_map_iff in Hf; destruct Hf as (a & <- & Ha); cbn.
    - now apply (Hd a).
    - constructor; [intros []|constructor]. }
  assert (Hg' : sr_graph inverse determinant isnormal T t_scope t_eval t_deriv t_deriv2 t_integral p (beliefs_of ds (cs_rows (fr_Zt _ fr))) = Ok cg) by exact Hg.
  exists cg. split; [exact Et|]. split; [exact Hb|]. split; [exact Hg'|]. unfold find_lfun_SR.
  assert (Ec : check_modfr_SR "binomial" (link_name l) = Ok tt) by (destruct l; reflexivity). rewrite Ec. cbn [bind].
  rewrite Et. cbn [bind]. rewrite Hb. cbn [bind].
  assert (Ef : make_family "binomial" (link_name l) = Ok (mkFamily l Binomial)) by (destruct l; reflexivity). rewrite Ef. cbn [bind].
  fold p. rewrite Hg'. cbn [bind]. destruct (Z.ltb_spec 500000 (width cg ^ Z.of_nat (2 * nSL))); [right|left]; auto.
Qed.

Lemma C56_rejects_main : forall fr m family link nSL,
  (family <> "binomial"%string \/ forall l, link <> link_name l) ->
  setup fr m family link nSL = Throw RuntimeError.
Proof.
  intros fr m family link nSL H. unfold find_lfun_SR, check_modfr_SR.
  destruct (String.eqb_spec family "binomial") as [->|]; [|reflexivity]. cbn [negb].
  destruct H as [H|H]; [congruence|].
  destruct (String.eqb_spec link "logit") as [->|]; [destruct (H Logit); reflexivity|].
  destruct (String.eqb_spec link "probit") as [->|]; [destruct (H Probit); reflexivity|]. reflexivity.
Qed.

End SR.
