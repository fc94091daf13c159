From Coq Require Import List ZArith Bool Lia.
From Verif Require Import Model.Base Model.Items Model.Family Model.GLMM Model.Mixed Model.ClusterGraph
  Model.Stateful Proofs.ListLemmas Proofs.GraphLemmas Proofs.GLMMMain.
Import ListNotations.

(** * Outcomes that are never exceptions *)
Definition nothrow {A} (o : outcome A) : Prop := match o with Ok _ | UB => True | _ => False end.
Lemma nothrow_bind {A B} (m : outcome A) (f : A -> outcome B) :
  nothrow m -> (forall a, nothrow (f a)) -> nothrow (bind m f).
Proof. intros H G. destruct m; cbn [bind] in *; auto. Qed.
Lemma nothrow_mapM {A B} (f : A -> outcome B) l : (forall a, nothrow (f a)) -> nothrow (mapM f l).
Proof.
  intros H. induction l; cbn [mapM]; [exact I|]. apply nothrow_bind; auto. intros.
  apply nothrow_bind; auto. intros; exact I.
Qed.
Lemma nothrow_zip2 {A B C} (f : A -> B -> C) a b : nothrow (zip2 f a b).
Proof.
  revert b. induction a; intros [|y b]; cbn [zip2]; try exact I. apply nothrow_bind; auto. intros; exact I.
Qed.
Lemma nothrow_zip3 {A B C D} (f : A -> B -> C -> D) a b c : nothrow (zip3 f a b c).
Proof. unfold zip3. apply nothrow_bind; intros; apply nothrow_zip2. Qed.
Lemma nothrow_get {A} (l : list A) i : nothrow (vec_get l i).
Proof. unfold vec_get. destruct (nth_error l i); exact I. Qed.

Section Agree.
Context (F : num) (Heq : forall a b, neqb F a b = true -> a = b).
Context (datas : list (glmm_data F)) (h0 : heap F) (Hnew : new_heap F datas = Ok h0).

Ltac nt := repeat first
  [ exact I | apply nothrow_zip2 | apply nothrow_zip3 | apply nothrow_get
  | apply nothrow_bind; intros | apply nothrow_mapM; intros ].

Lemma nothrow_fill_column theta Li col k : nothrow (fill_column F theta Li k col).
Proof.
  revert k. induction col as [|[r v] col IH]; intros k; cbn [fill_column]; [exact I|].
  apply nothrow_bind; [unfold theta_at|intros; apply nothrow_bind; [apply IH|intros; exact I]].
  apply nothrow_bind; [apply nothrow_get|intros i]. destruct (i <? 0)%Z; [exact I|apply nothrow_get].
Qed.
Lemma nothrow_fill_columns theta Li cols k : nothrow (fill_columns F theta Li k cols).
Proof.
  revert k. induction cols as [|c cols IH]; intros k; cbn [fill_columns]; [exact I|].
  apply nothrow_bind; [apply nothrow_fill_column|intros; apply nothrow_bind; [apply IH|intros; exact I]].
Qed.
Lemma nothrow_dot a b : nothrow (dot F a b). Proof. unfold dot. nt. Qed.
Lemma nothrow_prepared d p : nothrow (prepared F d p).
Proof.
  unfold prepared, compute_LambdatThetaZt, compute_XBeta, sp_mul, matvec, column.
  repeat first [apply nothrow_fill_columns | apply nothrow_dot | progress nt].
Qed.
Lemma nothrow_lp d c x : nothrow (computeLinearPredictor F d c x).
Proof. unfold computeLinearPredictor, column. repeat first [apply nothrow_dot | progress nt]. Qed.

(** * The heap *)
Definition InvOf (ds : list (glmm_data F)) (h : heap F) : Prop :=
  length h = length ds /\
  forall n d c, nth_error ds n = Some d -> nth_error h n = Some c -> consistent F d c.
Definition Inv := InvOf datas.

Lemma new_heap_inv_of : forall ds h, mapM (glmm_new F) ds = Ok h ->
  InvOf ds h /\ forall n d, nth_error ds n = Some d -> exists c, glmm_new F d = Ok c.
Proof.
  induction ds as [|d ds IH]; intros h H; cbn [mapM] in H.
  - injection H as <-. split; [split; [reflexivity|]|]; intros n; destruct n; discriminate.
  - destruct (glmm_new F d) as [c| | |] eqn:E; cbn [bind] in H; try discriminate.
    destruct (mapM (glmm_new F) ds) as [h'| | |] eqn:E'; cbn [bind] in H; try discriminate.
    injection H as <-. destruct (IH h' eq_refl) as [[L I] N]. split; [split|].
    + simpl. congruence.
    + intros [|n] d' c' Hd Hc; simpl in *.
      * injection Hd as <-. injection Hc as <-. eapply new_consistent; eauto.
      * eapply I; eauto.
    + intros [|n] d' Hd; simpl in *; [injection Hd as <-; eauto|eapply N; eauto].
Qed.

Lemma new_heap_inv : Inv h0 /\ forall n d, nth_error datas n = Some d -> exists c, glmm_new F d = Ok c.
Proof. apply new_heap_inv_of. exact Hnew. Qed.

Lemma upd_inv h n d c : Inv h -> nth_error datas n = Some d -> consistent F d c -> Inv (upd h n c).
Proof.
  intros [L I] Hd Hc. split; [rewrite upd_length; exact L|]. intros m d' c' Hd' Hc'.
  destruct (Nat.eq_dec m n) as [->|Hm].
  - assert (d' = d) by congruence. subst d'.
    rewrite nth_error_upd_eq in Hc' by (rewrite L; apply nth_error_Some; congruence).
    injection Hc' as <-. exact Hc.
  - rewrite nth_error_upd_neq in Hc' by auto. eapply I; eassumption.
Qed.

(** [m] gives the same from any two heaps, keeps them sound, and gives what the
    program [p] without memory gives unless it meets undefined behaviour. *)
Definition agree {A} (m : M F A) (p : outcome A) : Prop :=
  forall h1 h2, Inv h1 -> Inv h2 ->
    fst (m h1) = fst (m h2) /\ Inv (snd (m h1)) /\ (fst (m h1) = p \/ fst (m h1) = UB).

Lemma agree_lift {A} (o : outcome A) : agree (mlift F o) o.
Proof. intros h1 h2 H1 H2. cbn. auto. Qed.
Lemma agree_ret {A} (a : A) : agree (mret F a) (Ok a).
Proof. intros h1 h2 H1 H2. cbn. auto. Qed.
Lemma agree_bind {A B} (m : M F A) p (f : A -> M F B) g : agree m p ->
  (forall a, agree (f a) (g a)) -> agree (mbind F m f) (bind p g).
Proof.
  intros H G h1 h2 I1 I2. destruct (H h1 h2 I1 I2) as [E [J1 D]].
  destruct (H h2 h1 I2 I1) as [_ [J2 _]]. unfold mbind.
  destruct (m h1) as [o1 k1], (m h2) as [o2 k2]. cbn [fst snd] in *. subst o2.
  destruct o1 as [a| | |].
  - destruct D as [<-|D]; [|discriminate]. cbn [bind]. apply G; assumption.
  - destruct D as [<-|D]; [|discriminate]. cbn. auto.
  - cbn. auto.
  - destruct D as [<-|D]; [|discriminate]. cbn. auto.
Qed.
Lemma agree_foldM {A T} (f : T -> A -> M F T) g : (forall t a, agree (f t a) (g t a)) ->
  forall l t, agree (mfoldM F f l t) (foldM g l t).
Proof.
  intros H l. induction l as [|a l IH]; intros t; cbn [mfoldM foldM]; [apply agree_ret|].
  apply agree_bind; auto.
Qed.

Lemma agree_object {A} n (f : glmm_data F -> cache F -> outcome (A * cache F)) (dv : A) :
  (forall d c1 c2, consistent F d c1 -> consistent F d c2 -> f d c1 = f d c2) ->
  (forall d c v c', consistent F d c -> f d c = Ok (v, c') -> consistent F d c') ->
  (forall d c, consistent F d c -> nothrow (f d c)) ->
  agree (on_object F datas n f) (Ok (value dv (fresh F datas n f))).
Proof.
  intros Hs Hk Hn h1 h2 [L1 I1] [L2 I2]. unfold on_object.
  destruct (nth_error datas n) as [d|] eqn:Ed; [|cbn; split; [auto|split; [split|]; auto]].
  assert (Hlt : n < length datas) by (apply nth_error_Some; congruence).
  destruct (nth_error h1 n) as [c1|] eqn:E1; [|exfalso; apply nth_error_None in E1; lia].
  destruct (nth_error h2 n) as [c2|] eqn:E2; [|exfalso; apply nth_error_None in E2; lia].
  assert (C1 := I1 n d c1 Ed E1). assert (C2 := I2 n d c2 Ed E2).
  rewrite (Hs d c2 c1 C2 C1).
  destruct (proj2 new_heap_inv n d Ed) as [c0 E0].
  assert (C0 := new_consistent F d c0 E0).
  assert (Ef : fresh F datas n f = r <- f d c1 ;; Ok (fst r)).
  { unfold fresh, vec_get. rewrite Ed. cbn [bind]. rewrite E0. cbn [bind]. now rewrite (Hs d c0 c1 C0 C1). }
  rewrite Ef. pose proof (Hn d c1 C1) as Ht.
  destruct (f d c1) as [[a c']|e| |] eqn:Efd; cbn [nothrow] in Ht; try contradiction; cbn [bind fst value].
  - split; [reflexivity|]. split; [|left; reflexivity].
    apply (upd_inv h1 n d c'); [split; assumption|exact Ed|]. eapply Hk; [exact C1|exact Efd].
  - cbn. split; [auto|split; [split|]; auto].
Qed.

Section Calls.
Context (par : params F) (P : parts F).
Local Notation S := (pure_sig F datas par P).

Lemma agree_beval b x : agree (s_beval F datas par P b x) (Ok (beval S b x)).
Proof.
  destruct b as [n|s]; cbn [s_beval pure_sig beval]; [|apply agree_ret].
  apply agree_object.
  - intros d c1 c2 C1 C2. now rewrite !(evaluate_prepared F Heq).
  - intros. eapply evaluate_keeps; eassumption.
  - intros d c C. rewrite (evaluate_prepared F Heq) by exact C.
    apply nothrow_bind; [apply nothrow_prepared|intros]. apply nothrow_bind; [apply nothrow_lp|intros].
    unfold Family.evaluate, binomial_evaluate. nt.
Qed.
Lemma agree_bderiv b x : agree (s_bderiv F datas par P b x) (Ok (bderiv S b x)).
Proof.
  destruct b as [n|s]; cbn [s_bderiv pure_sig bderiv]; [|apply agree_ret].
  apply agree_object.
  - intros d c1 c2 C1 C2. now rewrite !(deriv_prepared F Heq).
  - intros. eapply deriv_keeps; eassumption.
  - intros d c C. rewrite (deriv_prepared F Heq) by exact C.
    apply nothrow_bind; [apply nothrow_prepared|intros]. apply nothrow_bind; [apply nothrow_lp|intros].
    unfold Family.evaluateDerivative, matvec. repeat first [apply nothrow_dot | progress nt].
Qed.
Lemma agree_bderiv2 b x : agree (s_bderiv2 F datas par P b x) (Ok (bderiv2 S b x)).
Proof.
  destruct b as [n|s]; cbn [s_bderiv2 pure_sig bderiv2]; [|apply agree_ret].
  apply agree_object.
  - intros d c1 c2 C1 C2. now rewrite !(deriv2_prepared F Heq).
  - intros. eapply deriv2_keeps; eassumption.
  - intros d c C. rewrite (deriv2_prepared F Heq) by exact C.
    apply nothrow_bind; [apply nothrow_prepared|intros]. apply nothrow_bind; [apply nothrow_lp|intros].
    unfold Family.evaluateSecondDerivative. repeat first [apply nothrow_dot | progress nt].
Qed.

Ltac ag := first [apply agree_ret | apply agree_lift].
Lemma agree_let {A B} (m : M F A) (v : A) (f : A -> M F B) g : agree m (Ok v) ->
  (forall a, agree (f a) (g a)) -> agree (mbind F m f) (g v).
Proof. intros H G. apply (agree_bind m (Ok v) f g H G). Qed.

Lemma agree_eval_loop (m : mixed S) x : forall bs k r,
  agree (s_eval_loop F datas par P m x bs k r) (eval_loop m x bs k r).
Proof.
  induction bs as [|b bs IH]; intros k r; cbn [s_eval_loop eval_loop]; [ag|].
  apply agree_bind; [ag|intros rel]. apply agree_bind; [ag|intros xs].
  apply (agree_let _ (beval S b xs) _ (fun value => inv <- vec_at (m_inv m) k ;;
     eval_loop m x bs (k + 1) (if inv : bool then dsub S r value else dadd S r value))); [apply agree_beval|].
  intros v. apply agree_bind; [ag|intros inv]. apply IH.
Qed.
Lemma agree_evaluate (m : mixed S) x : agree (s_evaluate F datas par P m x) (Mixed.evaluate m x).
Proof. apply agree_eval_loop. Qed.

Lemma agree_deriv_loop (m : mixed S) x : forall bs k r,
  agree (s_deriv_loop F datas par P m x bs k r) (deriv_loop m x bs k r).
Proof.
  induction bs as [|b bs IH]; intros k r; cbn [s_deriv_loop deriv_loop]; [ag|]. cbv zeta.
  apply agree_bind; [ag|intros xs].
  apply (agree_let _ (bderiv S b xs) _ (fun d => inv <- vec_at (m_inv m) k ;;
     ret' <- @addVectorSubset S r (findRelativeItems (bscope S b) (m_items m)) (if inv : bool then map (dopp S) d else d) ;;
     deriv_loop m x bs (k + 1) ret')); [apply agree_bderiv|].
  intros v. apply agree_bind; [ag|intros inv]. apply agree_bind; [ag|intros ret']. apply IH.
Qed.
Lemma agree_evaluateDerivative (m : mixed S) x :
  agree (s_evaluateDerivative F datas par P m x) (Mixed.evaluateDerivative m x).
Proof. apply agree_deriv_loop. Qed.

Lemma agree_deriv2_loop (m : mixed S) x : forall bs k r,
  agree (s_deriv2_loop F datas par P m x bs k r) (deriv2_loop m x bs k r).
Proof.
  induction bs as [|b bs IH]; intros k r; cbn [s_deriv2_loop deriv2_loop]; [ag|]. cbv zeta.
  apply agree_bind; [ag|intros xs].
  apply (agree_let _ (bderiv2 S b xs) _ (fun d => inv <- vec_at (m_inv m) k ;;
     ret' <- @addMatrixSubset S r (findRelativeItems (bscope S b) (m_items m)) (if inv : bool then map (map (dopp S)) d else d) ;;
     deriv2_loop m x bs (k + 1) ret')); [apply agree_bderiv2|].
  intros v. apply agree_bind; [ag|intros inv]. apply agree_bind; [ag|intros ret']. apply IH.
Qed.
Lemma agree_evaluateSecondDerivative (m : mixed S) x :
  agree (s_evaluateSecondDerivative F datas par P m x) (Mixed.evaluateSecondDerivative m x).
Proof. apply agree_deriv2_loop. Qed.

Lemma agree_run_integral (m : mixed S) : forall p,
  agree (s_run_integral F datas par P m p)
        (run_integral F P (Mixed.evaluate m) (Mixed.evaluateDerivative m) (Mixed.evaluateSecondDerivative m) p).
Proof.
  induction p; cbn [s_run_integral run_integral]; try ag.
  - apply agree_bind; [apply agree_evaluate|auto].
  - apply agree_bind; [apply agree_evaluateDerivative|auto].
  - apply agree_bind; [apply agree_evaluateSecondDerivative|auto].
Qed.

Lemma agree_integrate (m : mixed S) i : agree (s_integrate F datas par P m i) (integrate m i).
Proof.
  unfold s_integrate, integrate. cbv zeta. apply agree_bind; [apply agree_run_integral|intros; ag].
Qed.
Lemma agree_margin (m : mixed S) items n : agree (s_margin F datas par P m items n) (margin m items n).
Proof.
  unfold s_margin, margin. destruct n; [ag|]. apply agree_foldM. intros. apply agree_integrate.
Qed.
Lemma agree_isProper (m : mixed S) : agree (s_isProper F datas par P m) (isProper m).
Proof.
  unfold s_isProper, isProper. cbv zeta. apply agree_bind; [|intros; ag].
  destruct (0 <? _); [|ag]. apply agree_bind; [apply agree_evaluate|intros; ag].
Qed.
Lemma agree_passMessage (cg : cgraph S) k fwd n :
  agree (s_passMessage F datas par P cg k fwd n) (passMessage cg k fwd n).
Proof.
  unfold s_passMessage, passMessage. apply agree_bind; [ag|intros e]. cbv zeta.
  apply agree_bind; [ag|intros ci]. apply agree_bind.
  { unfold s_project, projectClusterOntoEdge. apply agree_bind; [apply agree_margin|intros; ag]. }
  intros e'. apply agree_bind; [ag|intros cj]. apply agree_bind; [apply agree_isProper|intros []; ag].
Qed.
Lemma agree_calibrateInternal (cg : cgraph S) fwd n :
  agree (s_calibrateInternal F datas par P cg fwd n) (calibrateInternal cg fwd n).
Proof.
  unfold s_calibrateInternal, calibrateInternal. cbv zeta. apply agree_foldM. intros. apply agree_passMessage.
Qed.
Lemma agree_setNormalApprox (cg : cgraph S) mean prec :
  agree (s_setNormalApprox F datas par P cg mean prec) (cg_setNormalApprox cg mean prec).
Proof.
  unfold s_setNormalApprox, cg_setNormalApprox. apply agree_bind; [ag|intros cl]. apply agree_bind; [ag|intros es].
  apply agree_bind; [apply agree_calibrateInternal|intros cg1].
  apply agree_bind; [apply agree_calibrateInternal|intros cg2; ag].
Qed.
Lemma agree_compute (cg : cgraph S) mean prec :
  agree (s_computeLogNormalizingConstant F datas par P cg mean prec)
        (computeLogNormalizingConstant cg mean prec).
Proof.
  unfold s_computeLogNormalizingConstant, computeLogNormalizingConstant.
  apply agree_bind; [apply agree_setNormalApprox|intros cg1].
  apply agree_bind; [apply agree_calibrateInternal|intros cg2].
  unfold s_logNormalizingConstant, cg_logNormalizingConstant. apply agree_bind; [ag|intros fb].
  unfold s_mixed_logNormalizingConstant, mixed_logNormalizingConstant.
  apply agree_bind; [apply agree_margin|intros]. apply agree_evaluate.
Qed.
End Calls.

Lemma session_inv : forall cs h, Inv h -> Inv (run_session F datas cs h).
Proof.
  unfold run_session. induction cs as [|c cs IH]; intros h I; cbn [fold_left]; [exact I|].
  apply IH. unfold run_call.
  apply (agree_compute (call_par _ _ c) (call_parts _ _ c) (call_cg _ _ c) (call_mean _ _ c) (call_prec _ _ c) h h I I).
Qed.

Lemma C12_main : forall cs c,
  fst (run_call F datas c (run_session F datas cs h0)) = fst (run_call F datas c h0) /\
  (fst (run_call F datas c h0) =
     computeLogNormalizingConstant (call_cg _ _ c) (call_mean _ _ c) (call_prec _ _ c) \/
   fst (run_call F datas c h0) = UB).
Proof.
  intros cs c. pose proof (proj1 new_heap_inv) as I0. pose proof (session_inv cs h0 I0) as I1.
  destruct (agree_compute (call_par _ _ c) (call_parts _ _ c) (call_cg _ _ c) (call_mean _ _ c) (call_prec _ _ c)
              (run_session F datas cs h0) h0 I1 I0) as [E [_ D]].
  unfold run_call. split; [exact E|]. rewrite <- E. exact D.
Qed.
End Agree.
