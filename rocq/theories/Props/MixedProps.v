(** C23, C24, C25: beliefs as products of factors. *)
From Coq Require Import List ZArith Bool Lia Reals.
From Verif Require Import Model.Base Model.Items Model.Mixed Model.ClusterGraph
  Spec.BeliefSpec Spec.TreeSpec Spec.MessageSpec Spec.MixedSpec Spec.Checked Spec.Toy
  Proofs.CheckedLemmas Proofs.MixedMain Props.ClusterProps.
Import ListNotations.

(** C23.  [run e] is the program, [facs e] the list of signed factors it should
    stand for. *)
Theorem C23_products_and_quotients : forall (S : sig), group_laws S ->
  forall e : bexp S, ok S e ->
  m_items (run S e) = scope S e /\
  (forall w, lval w (run S e) = Ok (total S w (facs S e))) /\
  (forall o, ok S o -> incl (scope S o) (scope S e) -> forall w, exists va vb,
     lval w (run S e) = Ok va /\ lval w (run S o) = Ok vb /\
     lval w (mixed_mul (run S e) (run S o)) = Ok (dadd S va vb) /\
     lval w (mixed_div (run S e) (run S o)) = Ok (dsub S va vb) /\
     lval w (mixed_div (mixed_mul (run S e) (run S o)) (run S o)) = Ok va /\
     lval w (mixed_mul (mixed_div (run S e) (run S o)) (run S o)) = Ok va).
Proof. exact C23_main. Qed.
Print Assumptions C23_products_and_quotients.

(** Items in different orders. *)
Definition expr1 : bexp toy :=
  BDiv toy (BNormal toy (BMul toy (BMul toy (BItems toy [7; 3; 5]%Z) (BFactor toy (factor [5; 3]%Z (fun l => (nth 0 l 0 - 2 * nth 1 l 0)%Z))))
                 (BFactor toy (factor [3; 7; 5]%Z zsum))) [0; 0; 0]%Z [])
        (BMul toy (BItems toy [5; 7]%Z) (BFactor toy (factor [7]%Z zsum))).
Example C23_case : ok toy expr1 /\ @lval toy (fun i => i) (run toy expr1) = Ok 7%Z.
Proof.
  split; [|reflexivity]. simpl.
  repeat match goal with |- _ /\ _ => split end; try (intros x Hx; simpl in *; tauto);
  repeat (apply NoDup_cons; [simpl; lia|]); apply NoDup_nil.
Qed.

(** C24. *)
Theorem C24_lookup_of_items : forall item items,
  (forall k, nth_error items k = Some item -> (forall j, (j < k)%nat -> nth_error items j <> Some item) ->
     findRelativeItem item items = k) /\
  (~ In item items -> findRelativeItem item items = O).
Proof. exact C24_lookup. Qed.
Print Assumptions C24_lookup_of_items.

Theorem C24_no_missing_lookup : forall S, group_laws S ->
  (forall f d d2 k n items b, b_integral S f d d2 k n items = Ok b -> bscope S b = items) ->
  forall fs : list (B S), (forall f, In f fs -> NoDup (bscope S f)) ->
  c_build fs = build fs /\
  forall cg ops cg', build fs = Ok cg -> run_ops cg ops = Ok cg' ->
    c_run_ops cg ops = Ok cg' /\
    (forall o, c_run_op cg' o = run_op cg' o) /\
    (forall items, c_cgmargin cg' items = cg_margin cg' items) /\
    (forall mean prec, c_compute cg' mean prec = computeLogNormalizingConstant cg' mean prec) /\
    c_extractBeliefs cg' = extractBeliefs cg'.
Proof. exact C24_never. Qed.
Print Assumptions C24_no_missing_lookup.

(** The checked program does fail on a missing item, where the program goes on
    with position 0. *)
Example C24_case : findRelativeItem 5 [3; 7; 5]%Z = 2%nat /\ findRelativeItem 4 [3; 7; 5]%Z = 0%nat /\
  @c_mul toy (mixed_of_items [3; 7]%Z) (mixed_of_items [4]%Z) = Throw DomainError /\
  on_ok (cg <- c_build cycle ;; @c_run_ops toy cg [OpForward; OpPass 1 false false; OpCalibrate]) (fun _ => True).
Proof. vm_compute. repeat split. Qed.

(** C25: every entry of the assembled gradient and Hessian. *)
Theorem C25_scattered_sums : forall (S : sig), group_laws S ->
  forall e : bexp S, ok S e -> (forall p, In p (facs S e) -> shaped S (fst p)) ->
  forall w,
  (exists g, evaluateDerivative (run S e) (map w (scope S e)) = Ok g /\ length g = length (scope S e) /\
    forall p i, nth_error (scope S e) p = Some i ->
      nth_error g p = Some (gsum S (entry S w i) (facs S e))) /\
  (exists h, evaluateSecondDerivative (run S e) (map w (scope S e)) = Ok h /\
    length h = length (scope S e) /\ (forall row, In row h -> length row = length (scope S e)) /\
    forall p i q j, nth_error (scope S e) p = Some i -> nth_error (scope S e) q = Some j ->
      exists row, nth_error h p = Some row /\
        nth_error row q = Some (gsum S (entry2 S w i j) (facs S e))).
Proof. exact C25_entries. Qed.
Print Assumptions C25_scattered_sums.

(** The same for every belief of every cluster graph reached by message passing. *)
Theorem C25_scattered_sums_in_clusters : forall (S : sig), group_laws S ->
  forall (fs : list (B S)) ops cg cg',
  (forall f, In f fs -> NoDup (bscope S f)) ->
  (forall f d d2 k n items b, b_integral S f d d2 k n items = Ok b -> bscope S b = items) ->
  build fs = Ok cg -> run_ops cg ops = Ok cg' ->
  forall m, In m (cg_clusters cg' ++ map (fun e => e_belief e) (cg_edges cg')) ->
  (forall p, In p (combine (m_beliefs m) (m_inv m)) -> NoDup (bscope S (fst p)) /\ shaped S (fst p)) ->
  forall w,
  (exists g, evaluateDerivative m (map w (m_items m)) = Ok g /\ length g = length (m_items m) /\
    forall p i, nth_error (m_items m) p = Some i ->
      nth_error g p = Some (gsum S (entry S w i) (combine (m_beliefs m) (m_inv m)))) /\
  (exists h, evaluateSecondDerivative m (map w (m_items m)) = Ok h /\
    length h = length (m_items m) /\ (forall row, In row h -> length row = length (m_items m)) /\
    forall p i q j, nth_error (m_items m) p = Some i -> nth_error (m_items m) q = Some j ->
      exists row, nth_error h p = Some row /\
        nth_error row q = Some (gsum S (entry2 S w i j) (combine (m_beliefs m) (m_inv m)))).
Proof. exact C25_cluster_main. Qed.
Print Assumptions C25_scattered_sums_in_clusters.

(** If each factor's derivatives are right, so are the cluster's: for any linear
    notion of derivative. *)
Theorem C25_right_if_factors_are : forall (S : sig), group_laws S ->
  forall Dr, linear_derivative S Dr ->
  forall e : bexp S, ok S e -> (forall p, In p (facs S e) -> shaped S (fst p)) ->
  forall w,
  ((forall p i, In p (facs S e) -> In i (bscope S (fst p)) ->
     Dr (fun u => fval S (at_item S w i u) (fst p)) (w i) (entry S w i (fst p))) ->
   forall p i g, evaluateDerivative (run S e) (map w (scope S e)) = Ok g ->
     nth_error (scope S e) p = Some i -> exists d, nth_error g p = Some d /\
     Dr (fun u => total S (at_item S w i u) (facs S e)) (w i) d) /\
  ((forall p i j, In p (facs S e) -> In i (bscope S (fst p)) -> In j (bscope S (fst p)) ->
     Dr (fun u => entry S (at_item S w j u) i (fst p)) (w j) (entry2 S w i j (fst p))) ->
   forall p i q j h, evaluateSecondDerivative (run S e) (map w (scope S e)) = Ok h ->
     nth_error (scope S e) p = Some i -> nth_error (scope S e) q = Some j ->
     exists row d, nth_error h p = Some row /\ nth_error row q = Some d /\
     Dr (fun u => gsum S (entry S (at_item S w j u) i) (facs S e)) (w j) d).
Proof. exact C25_derivatives. Qed.
Print Assumptions C25_right_if_factors_are.

(** Real factors with given derivatives; the usual derivative is linear. *)
Definition rsig : sig :=
  mkSig R 0%R Rplus Rminus Ropp (fun _ => true)
    (list Z * (list R -> R) * (list R -> list R) * (list R -> list (list R)))
    (fun b => fst (fst (fst b))) (fun b => snd (fst (fst b))) (fun b => snd (fst b)) (fun b => snd b)
    nat (fun mean _ => length mean) (fun n _ _ => n) (fun n _ _ => n) (fun _ l => length l)
    (fun n => repeat 0%R n) (fun _ _ => 0%R) (fun _ _ _ _ _ _ => UB).
Example derivative_is_linear : linear_derivative rsig derivable_pt_lim.
Proof.
  split; simpl.
  - intros f g t d E H eps He. destruct (H eps He) as [delta Hd]. exists delta. intros h H0 H1.
    rewrite <- !E. now apply Hd.
  - intros; apply derivable_pt_lim_const.
  - intros; now apply derivable_pt_lim_plus.
  - intros; now apply derivable_pt_lim_opp.
Qed.
(** x y on items (4, 2), divided by x on item 2, in a belief with items (2, 9, 4). *)
Definition prod_factor : B rsig :=
  ([4; 2]%Z, fun x => (nth 0 x 0 * nth 1 x 0)%R, fun x => [nth 1 x 0; nth 0 x 0]%R,
   fun _ => [[0; 1]; [1; 0]]%R).
Definition lin_factor : B rsig := ([2]%Z, fun x => nth 0 x 0%R, fun _ => [1%R], fun _ => [[0%R]]).
Definition expr2 : bexp rsig :=
  BDiv rsig (BMul rsig (BItems rsig [2; 9; 4]%Z) (BFactor rsig prod_factor)) (BFactor rsig lin_factor).
Example C25_case : ok rsig expr2 /\ (forall p, In p (facs rsig expr2) -> shaped rsig (fst p)) /\
  evaluateDerivative (run rsig expr2) [5; 6; 7]%R = Ok [0 + 7 + - (1); 0; 0 + 5]%R /\
  forall w p i, In p (facs rsig expr2) -> In i (bscope rsig (fst p)) ->
     derivable_pt_lim (fun u => fval rsig (at_item rsig w i u) (fst p)) (w i) (entry rsig w i (fst p)).
Proof.
  split; [|split; [|split]].
  - simpl. repeat match goal with |- _ /\ _ => split end; try (intros x Hx; simpl in *; tauto);
  repeat (apply NoDup_cons; [simpl; lia|]); apply NoDup_nil.
  - intros p [<-|[<-|[]]] w; simpl; repeat split; intros row H; repeat destruct H as [<-|H]; auto; contradiction.
  - reflexivity.
  - intros w p i [<-|[<-|[]]]; simpl; intros H.
    + destruct H as [<-|[<-|[]]]; unfold fval, entry, at_item; simpl.
      * assert (H : derivable_pt_lim (mult_fct id (fct_cte (w 2%Z))) (w 4%Z) (1 * w 2%Z + w 4%Z * 0)%R)
          by (apply derivable_pt_lim_mult; [apply derivable_pt_lim_id|apply derivable_pt_lim_const]).
        assert (E : forall a b : R, (1 * a + b * 0 = a)%R) by (intros; ring).
        rewrite E in H. exact H.
      * assert (H : derivable_pt_lim (mult_fct (fct_cte (w 4%Z)) id) (w 2%Z) (0 * w 2%Z + w 4%Z * 1)%R)
          by (apply derivable_pt_lim_mult; [apply derivable_pt_lim_const|apply derivable_pt_lim_id]).
        assert (E : forall a b : R, (0 * a + b * 1 = b)%R) by (intros; ring).
        rewrite E in H. exact H.
    + destruct H as [<-|[]]. unfold fval, entry, at_item; simpl. apply derivable_pt_lim_id.
Qed.
