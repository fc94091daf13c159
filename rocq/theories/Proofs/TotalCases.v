(** C57: a graph whose integral is one, and which is rejected. *)
From Coq Require Import List ZArith Bool Lia.
From Verif Require Import Model.Base Model.Mixed Model.ClusterGraph Spec.BeliefSpec Spec.IntegralSpec Spec.TreeSpec Spec.MixedSpec Spec.TotalSpec Spec.Toy.
Import ListNotations.
Local Open Scope Z_scope.

Definition toy1 : sig :=
  mkSig Z 0 Z.add Z.sub Z.opp (fun x => negb (Z.eqb x 0))
    (list Z * (list Z -> Z)) fst snd (fun _ x => map (fun _ => 0) x) (fun _ x => map (fun _ => map (fun _ => 0) x) x)
    (list Z) (fun mean _ => mean) (fun n _ _ => n) (fun n _ _ => n) (fun n l => map (fun i => nth i n 0) l)
    (fun n => n) (fun _ _ => 1)
    (fun f _ _ k _ items =>
       Ok (items, fun x => match f (insert_at 0 k x), f (insert_at 1 k x) with
                           | Ok a, Ok b => Z.max a b
                           | _, _ => 0 end)).
Definition max01 (g : Z -> Z) : Z := Z.max (g 0) (g 1).
Definition pair_of (v : Z) : list (B toy1) := [([0; 1], fun _ => v); ([1; 2], fun _ => v)].

Lemma toy1_laws : group_laws toy1 /\ normal_sizes toy1 /\ exact_integral toy1 max01 /\ integrates toy1.
Proof.
  split; [|split; [|split]].
  - split; cbn; intros; lia.
  - split; cbn; intros; try reflexivity. apply map_length.
  - split; cbn.
    + intros f g H. unfold max01. now rewrite !H.
    + intros c f. unfold max01. lia.
    + intros f d d2 k n items b E. injection E as <-. reflexivity.
    + intros f d d2 k n items b E x g Hl Hk H. injection E as <-. cbn. unfold max01.
      assert (P : forall u, insert_at u k x = put toy1 u k x).
      { intros u. clear. revert x. induction k; intros [|y x]; cbn; auto. now rewrite IHk. }
      now rewrite !P, !H.
  - intros f d d2 k n items _ _ _ _. eexists. split; [reflexivity|]. split; [reflexivity|]. intros w. cbn. rewrite !map_length.
    split; [reflexivity|]. split; [reflexivity|]. intros row Hrow. apply in_map_iff in Hrow. destruct Hrow as (? & <- & _). now rewrite !map_length.
Qed.

Lemma pair_ok v : (forall f, In f (pair_of v) -> NoDup (bscope toy1 f)) /\ (forall f, In f (pair_of v) -> shaped toy1 f) /\
  (forall f x, In f (pair_of v) -> In x (bscope toy1 f) -> 0 <= x < 3).
Proof.
  split; [|split].
  - intros f [<-|[<-|[]]]; cbn; repeat constructor; cbn; intuition lia.
  - intros f [<-|[<-|[]]] w; cbn; (split; [reflexivity|split; [reflexivity|]]); intros row [<-|[<-|[]]]; reflexivity.
  - intros f x [<-|[<-|[]]] Hx; cbn in Hx; lia.
Qed.

Lemma one_iterated order : forall w, iterated toy1 max01 order (fun w => dsumS toy1 (map (fval toy1 w) (pair_of 0))) w = 0.
Proof.
  assert (G : forall (F : (Z -> Z) -> Z), (forall w, F w = 0) -> forall w, iterated toy1 max01 order F w = 0).
  { induction order as [|x order IH]; intros F HF w; [apply HF|]. apply (IH (int_out toy1 max01 x F)). intros w'.
    unfold int_out, max01. now rewrite !HF. }
  apply G. reflexivity.
Qed.

Lemma pair_zero : (cg <- build (pair_of 0) ;; computeLogNormalizingConstant cg [5; 5; 5] (fun _ _ => 0)) = Throw RuntimeError.
Proof. vm_compute. reflexivity. Qed.
Lemma pair_one : (cg <- build (pair_of 1) ;; computeLogNormalizingConstant cg [5; 5; 5] (fun _ _ => 0)) = Ok 2.
Proof. vm_compute. reflexivity. Qed.

Lemma C57_zero_main : exists S LI fs cg mean prec, group_laws S /\ normal_sizes S /\ exact_integral S LI /\ integrates S /\
  (forall x, d_isnormal S x = true <-> x <> dzero S) /\
  (forall f, In f fs -> NoDup (bscope S f)) /\ (forall f, In f fs -> shaped S f) /\
  (forall f x, In f fs -> In x (bscope S f) -> 0 <= x < Z.of_nat (length mean)) /\ build fs = Ok cg /\
  (forall order w, iterated S LI order (fun w => dsumS S (map (fval S w) fs)) w = dzero S) /\
  computeLogNormalizingConstant cg mean prec = Throw RuntimeError.
Proof.
  destruct toy1_laws as (A & B & C & E). destruct (pair_ok 0) as (F & G & H).
  pose proof pair_zero as Z0. destruct (build (pair_of 0)) as [cg|e| |] eqn:Eb; try discriminate. cbn [bind] in Z0.
  exists toy1, max01, (pair_of 0), cg, [5; 5; 5], (fun _ _ => 0).
  repeat (split; [assumption|]). split; [|repeat (split; [first [assumption|exact H]|])].
  - intros x. cbn. destruct (Z.eqb_spec x 0); cbn; split; congruence.
  - split; [apply one_iterated|exact Z0].
Qed.
