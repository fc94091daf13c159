From Coq Require Import List Reals ZArith Lia Lra Arith Bool.
From Coquelicot Require Import Coquelicot.
From Verif Require Import Model.Base Model.Family Model.GLMM Spec.Numbers Spec.FamilySpec Spec.GLMMSpec
  Proofs.ListLemmas Proofs.FamilyLemmas Proofs.FamilyMain Proofs.GLMMLemmas.
Import ListNotations.
Local Open Scope R_scope.

(** * The caches, over any numbers whose comparison finds equality *)
Section Caches.
Context (F : num) (Heq : forall a b, neqb F a b = true -> a = b).

Definition consistent (d : glmm_data F) (c : cache F) : Prop :=
  compute_LambdatThetaZt F d (c_theta F c) = Ok (c_LambdatThetaZt F c) /\
  compute_XBeta F d (c_beta F c) = Ok (c_XBeta F c).

Lemma vec_eqb_eq a b : vec_eqb F a b = true -> a = b.
Proof.
  revert b. induction a as [|x a IH]; intros [|y b] H; simpl in H; try discriminate; [reflexivity|].
  apply andb_prop in H. destruct H as [H1 H2]. f_equal; auto.
Qed.

Lemma new_consistent d c : glmm_new F d = Ok c -> consistent d c.
Proof.
  unfold glmm_new. intros H.
  destruct (compute_LambdatThetaZt F d _) as [m| | |] eqn:E1; cbn [bind] in H; try discriminate.
  destruct (compute_XBeta F d _) as [xb| | |] eqn:E2; cbn [bind] in H; try discriminate.
  injection H as <-. split; cbn; assumption.
Qed.

(** What [prepare] leaves does not depend on the state before. *)
Definition prepared (d : glmm_data F) (p : params F) : outcome (cache F) :=
  m <- compute_LambdatThetaZt F d (p_theta F p) ;;
  xb <- compute_XBeta F d (p_beta F p) ;;
  Ok (mkCache F (p_theta F p) (p_beta F p) m xb).

Lemma prepare_prepared d c p : consistent d c -> prepare F d c p = prepared d p.
Proof.
  intros [H1 H2]. unfold prepare, prepared, setTheta.
  destruct (vec_eqb F (p_theta F p) (c_theta F c)) eqn:Et.
  - apply vec_eqb_eq in Et. rewrite Et, H1. cbn [bind]. unfold setBeta.
    destruct (vec_eqb F (p_beta F p) (c_beta F c)) eqn:Eb.
    + apply vec_eqb_eq in Eb. rewrite Eb, H2. cbn [bind]. now destruct c.
    + destruct (compute_XBeta F d (p_beta F p)); cbn [bind]; reflexivity.
  - destruct (compute_LambdatThetaZt F d (p_theta F p)); cbn [bind]; try reflexivity.
    unfold setBeta; cbn [c_beta c_theta c_LambdatThetaZt c_XBeta].
    destruct (vec_eqb F (p_beta F p) (c_beta F c)) eqn:Eb.
    + apply vec_eqb_eq in Eb. rewrite Eb, H2. reflexivity.
    + destruct (compute_XBeta F d (p_beta F p)); cbn [bind]; reflexivity.
Qed.

Lemma prepared_consistent d p c : prepared d p = Ok c -> consistent d c.
Proof.
  unfold prepared. intros H.
  destruct (compute_LambdatThetaZt F d _) as [m| | |] eqn:E1; cbn [bind] in H; try discriminate.
  destruct (compute_XBeta F d _) as [xb| | |] eqn:E2; cbn [bind] in H; try discriminate.
  injection H as <-. split; cbn; assumption.
Qed.

Lemma evaluate_prepared d c x p : consistent d c -> glmm_evaluate F d c x p =
  (c' <- prepared d p ;; lp <- computeLinearPredictor F d c' x ;;
   v <- evaluate F (p_family F p) lp (gd_response F d) (gd_weights F d) ;; Ok (v, c')).
Proof. intros H. unfold glmm_evaluate. now rewrite prepare_prepared. Qed.

Lemma deriv_prepared d c x p : consistent d c -> glmm_evaluateDerivative F d c x p =
  (c' <- prepared d p ;; lp <- computeLinearPredictor F d c' x ;;
   fd <- evaluateDerivative F (p_family F p) lp (gd_response F d) (gd_weights F d) ;;
   v <- matvec F (c_LambdatThetaZt F c') fd ;; Ok (v, c')).
Proof. intros H. unfold glmm_evaluateDerivative. now rewrite prepare_prepared. Qed.

Lemma deriv2_prepared d c x p : consistent d c -> glmm_evaluateSecondDerivative F d c x p =
  (c' <- prepared d p ;; lp <- computeLinearPredictor F d c' x ;;
   fd <- evaluateSecondDerivative F (p_family F p) lp (gd_response F d) (gd_weights F d) ;;
   scaled <- mapM (fun row => zip2 (nmul F) row fd) (c_LambdatThetaZt F c') ;;
   v <- mapM (fun row => mapM (dot F row) (c_LambdatThetaZt F c')) scaled ;; Ok (v, c')).
Proof. intros H. unfold glmm_evaluateSecondDerivative. now rewrite prepare_prepared. Qed.

Ltac inv_bind H := match type of H with
  | bind ?m _ = Ok _ => let E := fresh "E" in destruct m eqn:E; cbn [bind] in H; try discriminate H
  end.

Lemma evaluate_keeps d c x p v c' : consistent d c -> glmm_evaluate F d c x p = Ok (v, c') -> consistent d c'.
Proof.
  intros C H. rewrite evaluate_prepared in H by exact C. repeat inv_bind H. injection H as _ <-.
  eapply prepared_consistent; eassumption.
Qed.
Lemma deriv_keeps d c x p v c' : consistent d c -> glmm_evaluateDerivative F d c x p = Ok (v, c') -> consistent d c'.
Proof.
  intros C H. rewrite deriv_prepared in H by exact C. repeat inv_bind H. injection H as _ <-.
  eapply prepared_consistent; eassumption.
Qed.
Lemma deriv2_keeps d c x p v c' : consistent d c -> glmm_evaluateSecondDerivative F d c x p = Ok (v, c') -> consistent d c'.
Proof.
  intros C H. rewrite deriv2_prepared in H by exact C. repeat inv_bind H. injection H as _ <-.
  eapply prepared_consistent; eassumption.
Qed.
End Caches.

Lemma Reqb_eq a b : neqb Rnum a b = true -> a = b.
Proof. cbn [neqb Rnum]. unfold Reqb. destruct (Req_EM_T a b); [auto|discriminate]. Qed.

Lemma run_consistent d : forall cs c c', consistent Rnum d c ->
  foldM (run_gcall d) cs c = Ok c' -> consistent Rnum d c'.
Proof.
  induction cs as [|[[k x] p] cs IH]; intros c c' C H; cbn [foldM] in H; [injection H as <-; exact C|].
  destruct (run_gcall d c (k, x, p)) as [c1| | |] eqn:E; cbn [bind] in H; try discriminate.
  apply (IH c1 c'); [|exact H]. unfold run_gcall in E.
  destruct k; match type of E with bind ?m _ = _ => destruct m as [[v c2]| | |] eqn:E2 end;
    cbn [bind snd] in E; try discriminate; injection E as <-.
  - eapply evaluate_keeps; [exact Reqb_eq|exact C|exact E2].
  - eapply deriv_keeps; [exact Reqb_eq|exact C|exact E2].
  - eapply deriv2_keeps; [exact Reqb_eq|exact C|exact E2].
Qed.

(** * Values *)
Ltac use_bind E :=
  match type of E with
  | _ = ?r => match goal with |- context [bind ?m _] => replace m with r by (symmetry; exact E) end
  end; cbn [bind].

Section Values.
Context (d : glmm_data Rnum) (Sh : shaped d) (p : params Rnum).
Context (Hth : in_range (length (p_theta _ p)) (gd_Lind _ d)).
Context (Hbe : length (p_beta _ p) = gd_numFixed _ d).
Let n := gd_numObs _ d.
Let q := length (gd_items _ d).
Let theta : list R := p_theta _ p.
Let beta : list R := p_beta _ p.
Let etas (x : list R) : list R := map (eta d beta theta x) (seq 0 n).

Definition XB : list R := map (fun row => sumR (length beta) (fun i => nth i row 0 * nth i beta 0)) (gd_X _ d).
Definition pcache : cache Rnum := mkCache Rnum theta beta (LZmat d theta) XB.

Lemma prepared_ok : prepared Rnum d p = Ok pcache.
Proof.
  unfold prepared. rewrite (compute_LZ_ok d (p_theta _ p) Sh Hth). cbn [bind].
  rewrite (compute_XB_ok d (p_beta _ p) Sh Hbe). reflexivity.
Qed.

Lemma LZmat_row row : In row (LZmat d theta) -> length row = n.
Proof.
  unfold LZmat. intros H. apply in_map_iff in H. destruct H as [r [<- _]].
  now rewrite map_length, seq_length.
Qed.
Lemma LZmat_len : length (LZmat d theta) = q.
Proof. unfold LZmat. now rewrite map_length, seq_length. Qed.
Lemma LZmat_nth r k : (r < q)%nat -> (k < n)%nat -> nth k (nth r (LZmat d theta) []) 0 = LZ d theta r k.
Proof.
  intros Hr Hk. unfold LZmat. rewrite (nth_map_seq (fun r => map (fun k => LZ d theta r k) (seq 0 (gd_numObs _ d)))) by exact Hr.
  now apply nth_map_seq.
Qed.

Lemma lp_ok (x : list R) : length x = q ->
  computeLinearPredictor Rnum d pcache x = Ok (etas x).
Proof.
  intros Hx. unfold computeLinearPredictor, pcache; cbn [c_LambdatThetaZt c_XBeta].
  rewrite (mapM_all _ (fun k => sumR q (fun r => LZ d theta r k * nth r x 0))).
  2:{ intros k Hk. apply in_seq in Hk. rewrite (column_ok _ k n) by (try exact LZmat_row; unfold n; lia).
      cbn [bind]. rewrite dot_sum by (rewrite map_length, LZmat_len; symmetry; exact Hx).
      refine (f_equal (@Ok R) _). rewrite map_length, LZmat_len. apply sumR_ext. intros r Hr.
      apply (f_equal (fun z => z * nth r x 0)).
      rewrite (nth_map' (fun row => nth k row 0) (LZmat d theta) r 0 []) by (rewrite LZmat_len; exact Hr).
      apply LZmat_nth; [exact Hr|unfold n; lia]. }
  cbn [bind].
  destruct (zip2_spec Rplus XB (map (fun k => sumR q (fun r => LZ d theta r k * nth r x 0)) (seq 0 n)))
    as [r [E [L H]]].
  { unfold XB. rewrite !map_length, seq_length. exact (sh_X _ Sh). }
  etransitivity; [exact E|]. refine (f_equal (@Ok (list R)) _).
  assert (LX : length XB = n) by (unfold XB; rewrite map_length; exact (sh_X _ Sh)).
  apply (nth_ext (A:=R) _ _ 0 0); [rewrite L; unfold etas; rewrite map_length, seq_length; exact LX|].
  intros k Hk. change (N Rnum) with R in *. rewrite L, LX in Hk.
  rewrite (H k 0 0 0) by (rewrite LX; exact Hk). unfold etas.
  rewrite !nth_map_seq by exact Hk. unfold eta. cbn [nadd Rnum]. rewrite Hx.
  apply (f_equal2 Rplus); [|reflexivity]. unfold XB. rewrite (nth_map' _ (gd_X _ d) k 0 []); [reflexivity|].
  exact (eq_ind_r (fun m => (k < m)%nat) Hk (sh_X _ Sh)).
Qed.

Context (l : link) (Hl : p_family _ p = mkFamily l Binomial).
Context (P : R -> R) (HP : forall t, mn0 l t = P t).
Let y : list R := gd_response _ d.
Let w : list R := gd_weights _ d.
Let f (x : list R) : R := factor_loglik P d beta theta x.

Lemma etas_len x : length (etas x) = n.
Proof. unfold etas. now rewrite map_length, seq_length. Qed.
Lemma y_len x : length y = length (etas x).
Proof. rewrite etas_len. exact (sh_y _ Sh). Qed.
Lemma w_len x : length w = length (etas x).
Proof. rewrite etas_len. exact (sh_w _ Sh). Qed.

Lemma evaluate_value c (x : list R) : consistent Rnum d c -> length x = q ->
  glmm_evaluate Rnum d c x p = Ok (f x, pcache).
Proof.
  intros C Hx. rewrite evaluate_prepared by (exact Reqb_eq || exact C).
  rewrite prepared_ok. cbn [bind]. rewrite (lp_ok x Hx). cbn [bind]. rewrite Hl.
  use_bind (evaluate_loglik l (etas x) y w (y_len x) (w_len x)).
  refine (f_equal (fun v => Ok (v, pcache)) _). unfold f, factor_loglik, etas. rewrite map_map. f_equal.
  apply map_ext. intros k. now rewrite HP.
Qed.

Lemma grad_value c (x : list R) : consistent Rnum d c -> length x = q ->
  exists g, glmm_evaluateDerivative Rnum d c x p = Ok (g, pcache) /\ length g = q /\
  forall r, (r < q)%nat -> nth r g 0 =
    sumR n (fun k => LZ d theta r k * entry_c l 1 (nth k y 0) (nth k w 0) (eta d beta theta x k)).
Proof.
  intros C Hx. rewrite deriv_prepared by (exact Reqb_eq || exact C).
  rewrite prepared_ok. cbn [bind]. rewrite (lp_ok x Hx). cbn [bind]. rewrite Hl.
  destruct (d1_entries l (etas x) y w (y_len x) (w_len x)) as [fd [E [L H]]].
  use_bind E. unfold pcache; cbn [c_LambdatThetaZt].
  rewrite etas_len in L.
  rewrite matvec_ok by (intros row Hrow; rewrite (LZmat_row row Hrow); symmetry; exact L). cbn [bind].
  eexists. split; [reflexivity|]. split; [rewrite map_length; exact LZmat_len|].
  intros r Hr. rewrite (nth_map' _ (LZmat d theta) r 0 []) by (rewrite LZmat_len; exact Hr).
  change (N Rnum) with R in *. rewrite L. apply sumR_ext. intros k Hk. rewrite LZmat_nth by assumption.
  rewrite H by (rewrite etas_len; exact Hk). unfold etas. now rewrite nth_map_seq.
Qed.

Lemma hess_value c (x : list R) : consistent Rnum d c -> length x = q ->
  exists h, glmm_evaluateSecondDerivative Rnum d c x p = Ok (h, pcache) /\ length h = q /\
  (forall r, (r < q)%nat -> length (nth r h []) = q) /\
  forall r s, (r < q)%nat -> (s < q)%nat -> at2 h r s =
    sumR n (fun k => LZ d theta r k * LZ d theta s k *
                     entry_c l 2 (nth k y 0) (nth k w 0) (eta d beta theta x k)).
Proof.
  intros C Hx. rewrite deriv2_prepared by (exact Reqb_eq || exact C).
  rewrite prepared_ok. cbn [bind]. rewrite (lp_ok x Hx). cbn [bind]. rewrite Hl.
  destruct (d2_entries l (etas x) y w (y_len x) (w_len x)) as [fd [E [L H]]].
  use_bind E. unfold pcache; cbn [c_LambdatThetaZt]. rewrite etas_len in L.
  set (sc := fun row : list R => map (fun k => nth k row 0 * nth k fd 0) (seq 0 n)).
  rewrite (mapM_all _ sc).
  2:{ intros row Hrow. pose proof (LZmat_row row Hrow) as Lr.
      destruct (zip2_spec Rmult row fd) as [z [Ez [Lz Hz]]]; [transitivity n; [exact Lr|symmetry; exact L]|].
      etransitivity; [exact Ez|]. refine (f_equal (@Ok (list R)) _). unfold sc.
      apply (nth_ext (A:=R) _ _ 0 0); [rewrite Lz, map_length, seq_length; exact Lr|].
      intros k Hk. change (N Rnum) with R in *. rewrite (Hz k 0 0 0) by (rewrite <- Lz; exact Hk).
      rewrite nth_map_seq by (rewrite <- Lr, <- Lz; exact Hk). reflexivity. }
  cbn [bind].
  rewrite (mapM_all _ (fun row => map (fun row' => sumR n (fun k => nth k row 0 * nth k row' 0)) (LZmat d theta))).
  2:{ intros row Hrow. apply mapM_all. intros row' Hrow'. apply in_map_iff in Hrow.
      destruct Hrow as [row0 [<- Hrow0]]. rewrite dot_sum.
      - unfold sc at 1. rewrite map_length, seq_length. reflexivity.
      - unfold sc. rewrite map_length, seq_length, (LZmat_row row' Hrow'). reflexivity. }
  cbn [bind]. eexists. split; [reflexivity|]. split; [rewrite !map_length; exact LZmat_len|].
  assert (Row : forall r, (r < q)%nat ->
    nth r (map (fun row => map (fun row' => sumR n (fun k => nth k row 0 * nth k row' 0)) (LZmat d theta))
             (map sc (LZmat d theta))) [] =
    map (fun row' => sumR n (fun k => nth k (sc (nth r (LZmat d theta) [])) 0 * nth k row' 0)) (LZmat d theta)).
  { intros r Hr. rewrite (nth_map' _ (map sc (LZmat d theta)) r [] []) by (rewrite map_length, LZmat_len; exact Hr).
    rewrite (nth_map' sc (LZmat d theta) r [] []) by (rewrite LZmat_len; exact Hr). reflexivity. }
  split; [intros r Hr; rewrite Row by exact Hr; rewrite map_length; exact LZmat_len|].
  intros r s Hr Hs. unfold at2. rewrite Row by exact Hr.
  rewrite (nth_map' _ (LZmat d theta) s 0 []) by (rewrite LZmat_len; exact Hs).
  apply sumR_ext. intros k Hk. unfold sc. rewrite nth_map_seq by exact Hk.
  rewrite !LZmat_nth by assumption. rewrite H by (rewrite etas_len; exact Hk). unfold etas.
  rewrite nth_map_seq by exact Hk. ring.
Qed.

(** * Derivatives *)
Lemma loglik_sum (g : nat -> R) : forall m (a b : list R), length a = m -> length b = m -> forall s,
  loglik (map g (seq s m)) a b =
  sumR m (fun k => binomial1 Rnum (g (s + k)%nat) (nth k a 0) (nth k b 0)).
Proof.
  induction m as [|m IH]; intros [|a0 a] [|b0 b] Ha Hb s; simpl in Ha, Hb; try discriminate; [reflexivity|].
  rewrite sumR_S. cbn [seq map loglik nth]. rewrite (IH a b) by lia.
  rewrite Nat.add_0_r. apply (f_equal2 Rplus); [reflexivity|].
  apply sumR_ext. intros k Hk. replace (S s + k)%nat with (s + S k)%nat by lia. reflexivity.
Qed.

Lemma f_sum x : f x = sumR n (fun k => binomial1 Rnum (clip (mn0 l (eta d beta theta x k))) (nth k y 0) (nth k w 0)).
Proof.
  unfold f, factor_loglik.
  rewrite (map_ext _ (fun k => clip (mn0 l (eta d beta theta x k)))) by (intros; now rewrite HP).
  exact (loglik_sum (fun k => clip (mn0 l (eta d beta theta x k))) n y w (sh_y _ Sh) (sh_w _ Sh) 0).
Qed.

Lemma nth_upd {A} (v : list A) r t i d0 : (r < length v)%nat ->
  nth i (upd v r t) d0 = if Nat.eqb i r then t else nth i v d0.
Proof.
  revert r i. induction v as [|a v IH]; intros [|r] [|i] H; simpl in *; try lia; auto. apply IH. lia.
Qed.

Lemma eta_upd x r t k : (r < length x)%nat ->
  eta d beta theta (upd x r t) k = eta d beta theta x k + LZ d theta r k * (t - nth r x 0).
Proof.
  intros Hr. unfold eta. rewrite upd_length, Rplus_assoc. f_equal.
  rewrite (sumR_ext (length x) _ (fun i => LZ d theta i k * nth i x 0 +
    (if Nat.eqb i r then LZ d theta i k * (t - nth i x 0) else 0))).
  - rewrite sumR_plus. f_equal. rewrite (sumR_single (length x) r); [now rewrite Nat.eqb_refl|exact Hr|].
    intros i _ Hi; destruct (Nat.eqb_spec i r); [contradiction|reflexivity].
  - intros i Hi. rewrite nth_upd by exact Hr. destruct (Nat.eqb_spec i r); ring.
Qed.

Lemma eta_upd_self x r k : (r < length x)%nat ->
  eta d beta theta (upd x r (nth r x 0)) k = eta d beta theta x k.
Proof. intros Hr. rewrite eta_upd by exact Hr. ring. Qed.

Lemma eta_derive x r k u : (r < length x)%nat ->
  is_derive (fun t => eta d beta theta (upd x r t) k) u (LZ d theta r k).
Proof.
  intros Hr.
  apply (is_derive_R_ext (fun t => eta d beta theta x k + LZ d theta r k * (t - nth r x 0)) _ u (LZ d theta r k)).
  - intros t. symmetry. apply eta_upd, Hr.
  - reflexivity.
  - auto_derive; [exact I|ring].
Qed.

Definition unclipped x := forall k, (k < n)%nat -> tiny < mn0 l (eta d beta theta x k) < 1 - tiny.

Lemma comp_derive (g : R -> R) x r k u dg : (r < length x)%nat ->
  is_derive g (eta d beta theta (upd x r u) k) dg ->
  is_derive (fun t => g (eta d beta theta (upd x r t) k)) u (LZ d theta r k * dg).
Proof.
  intros Hr Hg.
  apply (is_derive_comp g (fun t => eta d beta theta (upd x r t) k)); [exact Hg|].
  apply eta_derive, Hr.
Qed.

Lemma term_derive a b t : tiny < mn0 l t < 1 - tiny ->
  is_derive (fun u => binomial1 Rnum (clip (mn0 l u)) a b) t (entry l 1 a b t).
Proof.
  intros H. pose proof (entry_derive l a b 0 t 1 ltac:(lia) H) as D.
  apply (is_derive_R_ext (fun u => 0 + binomial1 Rnum (clip (mn0 l u)) a b) _ t (entry l 1 a b t));
    [intros; cbn [N Rnum]; ring|reflexivity|].
  exact D.
Qed.

Lemma entry1_derive a b t : tiny < mn0 l t < 1 - tiny ->
  is_derive (entry l 1 a b) t (entry l 2 a b t).
Proof.
  intros H. pose proof tiny_small. unfold entry. apply (faa_chain _ _ _ _ _ _ _ _ _ _ 0 1); try lia.
  - apply mn_D0. - apply mn_D1. - apply mn_D2. - apply mn_D3.
  - apply binomial_D0. - apply binomial_D1. - apply binomial_D2. - apply binomial_D3.
  - lra.
Qed.

(** First derivative in coordinate r at a point with nothing clipped. *)
Lemma f_partial x r : (r < length x)%nat -> unclipped x ->
  is_derive (fun t => f (upd x r t)) (nth r x 0)
    (sumR n (fun k => LZ d theta r k * entry l 1 (nth k y 0) (nth k w 0) (eta d beta theta x k))).
Proof.
  intros Hr U.
  apply (is_derive_R_ext (fun t => sumR n (fun k => binomial1 Rnum (clip (mn0 l (eta d beta theta (upd x r t) k))) (nth k y 0) (nth k w 0)))
    _ (nth r x 0) (sumR n (fun k => LZ d theta r k * entry l 1 (nth k y 0) (nth k w 0) (eta d beta theta x k)))).
  - intros t. symmetry. apply f_sum.
  - reflexivity.
  - apply (sumR_derive n (fun k t => binomial1 Rnum (clip (mn0 l (eta d beta theta (upd x r t) k))) (nth k y 0) (nth k w 0))).
    intros k Hk.
    apply (comp_derive (fun u => binomial1 Rnum (clip (mn0 l u)) (nth k y 0) (nth k w 0))); [exact Hr|].
    rewrite eta_upd_self by exact Hr. apply term_derive, U, Hk.
Qed.

Lemma locally_all (m : nat) (Q : nat -> R -> Prop) (t : R) :
  (forall k, (k < m)%nat -> locally t (Q k)) -> locally t (fun u => forall k, (k < m)%nat -> Q k u).
Proof.
  induction m as [|m IH]; intros H.
  - apply filter_forall. intros u k Hk. lia.
  - assert (H1 := IH (fun k Hk => H k (Nat.lt_lt_succ_r _ _ Hk))). assert (H2 := H m (Nat.lt_succ_diag_r m)).
    generalize (filter_and (F := locally t) _ _ H1 H2). clear. apply filter_imp. intros u [H1 H2] k Hk. destruct (Nat.eq_dec k m) as [->|]; [exact H2|].
    apply H1. lia.
Qed.

Lemma unclipped_near x s : (s < length x)%nat -> unclipped x ->
  locally (nth s x 0) (fun t => unclipped (upd x s t)).
Proof.
  intros Hs U. apply (locally_all n (fun k t => tiny < mn0 l (eta d beta theta (upd x s t) k) < 1 - tiny)).
  intros k Hk.
  apply (locally_between (fun t => mn0 l (eta d beta theta (upd x s t) k)) _ _ _
           (LZ d theta s k * mn1 l (eta d beta theta (upd x s (nth s x 0)) k))).
  - apply comp_derive; [exact Hs|apply mn_D0].
  - rewrite eta_upd_self by exact Hs. apply U, Hk.
Qed.

Lemma f_mixed x r s : (r < length x)%nat -> (s < length x)%nat -> unclipped x ->
  is_mixed_partial f r s x
    (sumR n (fun k => LZ d theta r k * LZ d theta s k *
                      entry l 2 (nth k y 0) (nth k w 0) (eta d beta theta x k))).
Proof.
  intros Hr Hs U. unfold is_mixed_partial.
  apply (is_derive_ext_loc (fun t => sumR n (fun k => LZ d theta r k *
           entry l 1 (nth k y 0) (nth k w 0) (eta d beta theta (upd x s t) k)))).
  - generalize (unclipped_near x s Hs U). apply filter_imp. intros t Ut. symmetry.
    apply is_derive_unique. apply f_partial; [rewrite upd_length; exact Hr|exact Ut].
  - apply (sumR_derive n (fun k t => LZ d theta r k *
           entry l 1 (nth k y 0) (nth k w 0) (eta d beta theta (upd x s t) k))).
    intros k Hk.
    apply (is_derive_R_ext (fun t => LZ d theta r k * entry l 1 (nth k y 0) (nth k w 0) (eta d beta theta (upd x s t) k))
       _ (nth s x 0) (LZ d theta r k * (LZ d theta s k * entry l 2 (nth k y 0) (nth k w 0) (eta d beta theta x k))));
      [reflexivity|ring|].
    apply (is_derive_scal (fun t => entry l 1 (nth k y 0) (nth k w 0) (eta d beta theta (upd x s t) k))).
    apply comp_derive; [exact Hs|]. rewrite eta_upd_self by exact Hs. apply entry1_derive, U, Hk.
Qed.
End Values.

(** * The statements *)
Lemma link_mn l P : inverse_link l P -> forall t, mn0 l t = P t.
Proof.
  intros [[-> H]|[-> H]] t.
  - rewrite H. apply logit_logistic.
  - apply (normal_cdf_unique P H).
Qed.

Lemma C35_value_main : forall d c0 cs c l P (p : params Rnum) (x : list R), shaped d -> glmm_new Rnum d = Ok c0 ->
  foldM (run_gcall d) cs c0 = Ok c ->
  p_family _ p = mkFamily l Binomial -> inverse_link l P ->
  in_range (length (p_theta _ p)) (gd_Lind _ d) -> length (p_beta _ p) = gd_numFixed _ d ->
  length x = length (gd_items _ d) ->
  exists c', glmm_evaluate Rnum d c x p = Ok (factor_loglik P d (p_beta _ p) (p_theta _ p) x, c').
Proof.
  intros d c0 cs c l P p x Sh Hn Hc Hf HP Ht Hb Hx. eexists.
  apply (evaluate_value d Sh p Ht Hb l Hf P (link_mn l P HP)).
  - eapply run_consistent; [|exact Hc]. apply new_consistent, Hn.
  - exact Hx.
Qed.

Lemma C35_new_main : forall d, shaped d ->
  (in_range (length (gd_items _ d)) (gd_Lind _ d) -> exists c, glmm_new Rnum d = Ok c) /\
  (~ in_range (length (gd_items _ d)) (gd_Lind _ d) -> glmm_new Rnum d = UB).
Proof.
  intros d Sh. split; intros H; unfold glmm_new.
  - rewrite compute_LZ_ok by (auto; rewrite repeat_length; exact H). cbn [bind].
    rewrite compute_XB_ok by (auto; apply repeat_length). cbn [bind]. eauto.
  - rewrite compute_LZ_bad; auto. rewrite repeat_length. exact H.
Qed.

Lemma C46_main : forall d c0 cs c l P (p : params Rnum) (x : list R), shaped d -> glmm_new Rnum d = Ok c0 ->
  foldM (run_gcall d) cs c0 = Ok c ->
  p_family _ p = mkFamily l Binomial -> inverse_link l P ->
  in_range (length (p_theta _ p)) (gd_Lind _ d) -> length (p_beta _ p) = gd_numFixed _ d ->
  length x = length (gd_items _ d) ->
  (forall k, (k < gd_numObs _ d)%nat -> tiny < P (eta d (p_beta _ p) (p_theta _ p) x k) < 1 - tiny) ->
  exists g h c1 c2,
    glmm_evaluateDerivative Rnum d c x p = Ok (g, c1) /\
    glmm_evaluateSecondDerivative Rnum d c x p = Ok (h, c2) /\
    length g = length x /\ length h = length x /\
    (forall r, (r < length x)%nat -> length (nth r h []) = length x) /\
    let f := factor_loglik P d (p_beta _ p) (p_theta _ p) in
    (forall r, (r < length x)%nat -> is_partial_n f r 1 x (nth r g 0)) /\
    (forall r s, (r < length x)%nat -> (s < length x)%nat -> is_mixed_partial f r s x (at2 h r s)).
Proof.
  intros d c0 cs c l P p x Sh Hn Hc Hf HP Ht Hb Hx U.
  assert (C : consistent Rnum d c) by (eapply run_consistent; [|exact Hc]; apply new_consistent, Hn).
  destruct (grad_value d Sh p Ht Hb l Hf c x C Hx) as [g [Eg [Lg Hg]]].
  destruct (hess_value d Sh p Ht Hb l Hf c x C Hx) as [h [Eh [Lh [Lhr Hh]]]].
  assert (Hm := link_mn l P HP).
  assert (U' : unclipped d p l x) by (intros k Hk; rewrite Hm; apply U, Hk).
  do 4 eexists. split; [exact Eg|]. split; [exact Eh|]. rewrite Hx.
  split; [exact Lg|]. split; [exact Lh|]. split; [exact Lhr|]. cbv zeta. split.
  - intros r Hr. unfold is_partial_n.
    apply (is_derive_R_ext (fun t => factor_loglik P d (p_beta _ p) (p_theta _ p) (upd x r t)) _ _
       (sumR (gd_numObs _ d) (fun k => LZ d (p_theta _ p) r k *
          entry l 1 (nth k (gd_response _ d) 0) (nth k (gd_weights _ d) 0) (eta d (p_beta _ p) (p_theta _ p) x k))));
      [reflexivity| |].
    + rewrite Hg by exact Hr. apply sumR_ext. intros k Hk. now rewrite entry_unclipped by (apply U', Hk).
    + apply (f_partial d Sh p Hb l P Hm); [rewrite Hx; exact Hr|exact U'].
  - intros r s Hr Hs. rewrite Hh by assumption.
    rewrite (sumR_ext _ _ (fun k => LZ d (p_theta _ p) r k * LZ d (p_theta _ p) s k *
       entry l 2 (nth k (gd_response _ d) 0) (nth k (gd_weights _ d) 0) (eta d (p_beta _ p) (p_theta _ p) x k)))
      by (intros k Hk; now rewrite entry_unclipped by (apply U', Hk)).
    apply (f_mixed d Sh p Hb l P Hm); rewrite ?Hx; auto.
Qed.
