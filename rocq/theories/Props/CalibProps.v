(** C53: what the beliefs of a calibrated cluster graph are. *)
From Coq Require Import List ZArith Bool Lia.
From Verif Require Import Model.Base Model.Mixed Model.ClusterGraph
  Spec.BeliefSpec Spec.TreeSpec Spec.IntegralSpec Spec.MessageSpec Spec.CalibSpec Spec.Toy
  Proofs.CalibMain Proofs.CalibCases Props.ClusterProps Props.MessageProps.
Import ListNotations.

(** After any operations whatever, calibrate leaves in every cluster and every
    edge the marginal of the product of all factors on its items. *)
Theorem C53_calibrated_beliefs_are_marginals : forall (S : sig) LI,
  group_laws S -> exact_integral S LI -> fubini S LI ->
  forall fs : list (B S), (forall f, In f fs -> NoDup (bscope S f)) ->
  forall ops cg cg1 cg2, build fs = Ok cg -> run_ops cg ops = Ok cg1 -> calibrate cg1 = Ok cg2 ->
  map m_items (cg_clusters cg2) = map m_items (cg_clusters cg) /\
  (forall c, In c (cg_clusters cg2) -> holds_marginal LI fs c) /\
  (forall e, In e (cg_edges cg2) -> holds_marginal LI fs (e_belief e)).
Proof. exact C53_calibrate_main. Qed.
Print Assumptions C53_calibrated_beliefs_are_marginals.

(** margin(items) returns the marginal, as long as no normal-only message was
    passed once the graph had been calibrated. *)
Theorem C53_margin_exact : forall (S : sig) LI,
  group_laws S -> exact_integral S LI -> fubini S LI ->
  forall fs : list (B S), (forall f, In f fs -> NoDup (bscope S f)) ->
  forall ops cg cg1 cg2 its m, build fs = Ok cg -> no_reset false ops = true ->
  run_ops cg ops = Ok cg1 -> cg_margin cg1 its = Ok (m, cg2) ->
  (forall x, In x (m_items m) <-> In x its) /\ NoDup its /\
  (exists c, In c (map m_items (cg_clusters cg)) /\ incl its c) /\ holds_marginal LI fs m.
Proof. exact C53_margin_main. Qed.
Print Assumptions C53_margin_exact.

(** Items that are not in one cluster are refused. *)
Theorem C53_margin_refused : forall (S : sig) LI,
  group_laws S -> exact_integral S LI -> fubini S LI ->
  forall fs : list (B S), (forall f, In f fs -> NoDup (bscope S f)) ->
  forall ops cg cg1 cg2 its, build fs = Ok cg -> run_ops cg ops = Ok cg1 -> calibrate cg1 = Ok cg2 ->
  (forall c, In c (map m_items (cg_clusters cg)) -> NoDup its -> ~ incl its c) ->
  cg_margin cg1 its = Throw DomainError.
Proof. exact C53_outside_main. Qed.
Print Assumptions C53_margin_refused.

(** The log normalizing constant is the integral of the product of the factors,
    whatever was done to the graph before. *)
Theorem C53_constant_after_any_operations : forall (S : sig) LI,
  group_laws S -> exact_integral S LI -> fubini S LI ->
  forall fs : list (B S), (forall f, In f fs -> NoDup (bscope S f)) ->
  forall ops cg cg1 mean prec v, build fs = Ok cg -> run_ops cg ops = Ok cg1 ->
  computeLogNormalizingConstant cg1 mean prec = Ok v -> is_marginal LI fs [] (fun _ => v).
Proof. exact C53_constant_main. Qed.
Print Assumptions C53_constant_after_any_operations.

Example toy_fubini : fubini toy (fun g => Z.max (g 0%Z) (g 1%Z)).
Proof. exact toy_fubini_max. Qed.

(** Three operations on the four-cycle, then the marginals on {1, 2}, on {4} and
    on nothing, and the refusal of {1, 9}. *)
Definition marginal_at (ops : list (@op toy)) (its : list Z) (w : Z -> Z) : outcome Z :=
  cg <- build cycle ;; cg1 <- run_ops cg ops ;; r <- cg_margin cg1 its ;; @lval toy w (fst r).
Definition mx (g : Z -> Z) : Z := Z.max (g 0%Z) (g 1%Z).
Definition log_product (w : Z -> Z) : Z := dsumS toy (map (fval toy w) cycle).
Example C53_case :
  let ops := [OpForward; @OpSetNormal toy (repeat 0%Z 10) (fun _ _ => 0%Z); OpPass 1 false false;
              OpMargin [2%Z]; OpBackward] in
  no_reset false ops = true /\
  marginal_at ops [1; 2]%Z (fun i => i) = Ok (iterated toy mx [3; 4; 9]%Z log_product (fun i => i)) /\
  marginal_at ops [4]%Z (fun i => i) = Ok (iterated toy mx [1; 2; 3; 9]%Z log_product (fun i => i)) /\
  marginal_at ops []%Z (fun i => i) = Ok 25%Z /\
  marginal_at ops [1; 9]%Z (fun i => i) = Throw DomainError.
Proof. vm_compute. repeat split; reflexivity. Qed.
Example C53_constant_case :
  on_ok (cg <- build cycle ;; cg1 <- run_ops cg [OpCalibrate; OpPass 0 false true; OpMargin [9%Z]] ;;
         computeLogNormalizingConstant cg1 (repeat 0%Z 10) (fun _ _ => 0%Z)) (fun v => v = 25%Z).
Proof. vm_compute. reflexivity. Qed.

(** setNormalApprox on a calibrated graph takes the edge beliefs back out of the
    clusters but leaves isCalibrated_ set (src/ClusterGraph.cpp:47-72, 79-82): the
    next margin is not a marginal. *)
Theorem C53_margin_after_reset_refuted :
  exists (S : sig) LI (fs : list (B S)) ops cg cg1 cg2 its m,
  group_laws S /\ exact_integral S LI /\ fubini S LI /\ (forall f, In f fs -> NoDup (bscope S f)) /\
  build fs = Ok cg /\ run_ops cg ops = Ok cg1 /\ cg_margin cg1 its = Ok (m, cg2) /\
  ~ holds_marginal LI fs m.
Proof. exact C53_refuted_main. Qed.
Print Assumptions C53_margin_after_reset_refuted.
