(** C89: options that are given again. *)
From Coq Require Import String List Reals Bool Permutation Lra.
From Verif Require Import Model.Base Model.Family Model.Frames Model.Fit Model.Glmm Model.Control Spec.Numbers Spec.ControlSpec Proofs.ControlMain Proofs.GlmmMain.
Import ListNotations.
Local Open Scope string_scope.
Local Open Scope R_scope.

(** * Lists of options *)
Lemma set_name_id con n v : lookup n con = Some v -> set_name con n v = con.
Proof.
  unfold lookup. induction con as [|[k x] con IH]; cbn [find set_name fst snd]; [discriminate|]. destruct (String.eqb k n); cbn [snd]; intros H.
  - injection H as ->. reflexivity.
  - now rewrite (IH H).
Qed.
Lemma set_name_new con n v : ~ In n (map fst con) -> set_name con n v = (con ++ [(n, v)])%list.
Proof.
  induction con as [|[k x] con IH]; cbn [set_name map fst In app]; intros H; [reflexivity|]. destruct (String.eqb_spec k n) as [->|_]; [tauto|].
  rewrite IH by tauto. reflexivity.
Qed.
Lemma set_name_at (pre : named) n x v (d : named) : ~ In n (map fst pre) -> set_name (pre ++ (n, x) :: d)%list n v = (pre ++ (n, v) :: d)%list.
Proof.
  induction pre as [|[k y] pre IH]; cbn [set_name map fst In app]; intros H.
  - now rewrite String.eqb_refl.
  - destruct (String.eqb_spec k n) as [->|_]; [tauto|]. rewrite IH by tauto. reflexivity.
Qed.
Lemma set_names_self (suffix : named) : forall (pre d : named) (rest : list string), NoDup (map fst (pre ++ suffix)%list) -> map fst suffix = (map fst d ++ rest)%list ->
  set_names (pre ++ d)%list suffix = (pre ++ suffix)%list.
Proof.
  induction suffix as [|[n v] suffix IH]; intros pre d rest ND E.
  - destruct d; [reflexivity|discriminate].
  - assert (NI : ~ In n (map fst pre)).
    { rewrite map_app in ND. cbn [map fst] in ND. apply NoDup_remove_2 in ND. intros H. apply ND. apply in_or_app. now left. }
    assert (N2 : NoDup (map fst ((pre ++ [(n, v)]) ++ suffix)%list)) by (rewrite <- app_assoc; exact ND).
    change (set_names (set_name (pre ++ d)%list n v) suffix = (pre ++ (n, v) :: suffix)%list).
    destruct d as [|[k x] d]; cbn [map fst app] in E.
    + rewrite app_nil_r, (set_name_new _ _ _ NI). specialize (IH (pre ++ [(n, v)])%list [] (map fst suffix) N2 eq_refl).
      rewrite app_nil_r, <- app_assoc in IH. exact IH.
    + injection E as <- E. rewrite (set_name_at _ _ _ _ _ NI). specialize (IH (pre ++ [(n, v)])%list d rest N2 E).
      rewrite <- !app_assoc in IH. exact IH.
Qed.
Definition extends (d con : named) : Prop := NoDup (map fst con) /\ exists rest, map fst con = (map fst d ++ rest)%list.
Lemma set_name_names con n v : map fst (set_name con n v) = if in_dec string_dec n (map fst con) then map fst con else (map fst con ++ [n])%list.
Proof.
  destruct (in_dec string_dec n (map fst con)) as [H|H]; [|now rewrite (set_name_new _ _ _ H), map_app].
  induction con as [|[k x] con IH]; cbn [set_name map fst In] in *; [tauto|]. destruct (String.eqb_spec k n); cbn [map fst]; [reflexivity|]. rewrite IH by tauto. reflexivity.
Qed.
Lemma extends_set d con n v : extends d con -> extends d (set_name con n v).
Proof.
  intros [ND (rest & E)]. unfold extends. rewrite set_name_names. destruct (in_dec string_dec n (map fst con)) as [H|H]; [split; [exact ND|now exists rest]|].
  split; [apply (Permutation_NoDup (Permutation_cons_append (map fst con) n)); now constructor|].
  exists (rest ++ [n])%list. now rewrite E, app_assoc.
Qed.
Lemma extends_sets d control : forall con, extends d con -> extends d (set_names con control).
Proof. unfold set_names. induction control as [|e c IH]; intros con H; [exact H|]. apply IH. now apply extends_set. Qed.
Lemma extends_self d con : extends d con -> set_names d con = con.
Proof. intros [ND (rest & E)]. exact (set_names_self con [] d rest ND E). Qed.
Lemma extends_defaults m d : defaults m = Ok d -> extends d d.
Proof.
  intros H. split; [|exists []; now rewrite app_nil_r]. unfold defaults in H.
  repeat match type of H with context [String.eqb ?a ?b] => destruct (String.eqb a b) end; try discriminate; injection H as <-; cbn [map fst conLaplace conAGQ conSR conIS];
  repeat constructor; cbn [In]; intros H; decompose [or] H; try discriminate; assumption.
Qed.

(** * Completing a list twice *)
Definition second_warning (control : named) (d : named) : list string * list string :=
  (map fst (filter (fun e => negb (is_in (fst e) (map fst con_tot))) control),
   map fst (filter (fun e => negb (is_in (fst e) (map fst d))) (filter (fun e => is_in (fst e) (map fst con_tot)) control))).
Lemma again_eq control m con w d : defaults m = Ok d -> find_control_with_defaults control [m] = Ok (con, w) -> find_control_with_defaults con [m] = Ok (con, second_warning con d).
Proof.
  intros D. unfold find_control_with_defaults. rewrite D. cbn [bind].
  pose proof (extends_sets d control d (extends_defaults _ _ D)) as X1. set (con1 := set_names d control) in *. intros H.
  fold (second_warning con d).
  destruct (String.eqb_spec m "SR") as [->|NS].
  - destruct (lookup "nSL" con1) as [nSL|] eqn:L; [|discriminate]. cbn [needed bind negb String.eqb Ascii.eqb Bool.eqb] in H |- *.
    assert (E : con = set_name (set_name con1 "nAGQ" (Rpower 2 (nSL + 1) - 1)) "check_Laplace" 0) by congruence. clear H.
    assert (X3 : extends d con) by (rewrite E; now apply extends_set, extends_set).
    assert (L1 : lookup "nSL" con = Some nSL) by (rewrite E, !lookup_set; exact L).
    assert (L2 : lookup "nAGQ" con = Some (Rpower 2 (nSL + 1) - 1)) by (rewrite E, !lookup_set; reflexivity).
    assert (L3 : lookup "check_Laplace" con = Some 0) by (rewrite E, lookup_set; reflexivity). clear E.
    rewrite (extends_self _ _ X3), L1. cbn [needed bind]. rewrite (set_name_id _ _ _ L2), (set_name_id _ _ _ L3). reflexivity.
  - cbn [bind] in H |- *. destruct (String.eqb_spec m "Laplace") as [->|NL]; cbn [negb] in H |- *.
    + destruct (lookup "order" con1) as [o|] eqn:L; [|discriminate]. cbn [needed bind] in H. destruct (exceeds o 1) eqn:EX; cbn [bind] in H.
      * assert (E : con = set_name con1 "check_Laplace" 0) by congruence. clear H.
        assert (X3 : extends d con) by (rewrite E; now apply extends_set).
        assert (L1 : lookup "order" con = Some o) by (rewrite E, lookup_set; exact L).
        assert (L3 : lookup "check_Laplace" con = Some 0) by (rewrite E, lookup_set; reflexivity). clear E.
        rewrite (extends_self _ _ X3), L1. cbn [needed bind]. rewrite EX, (set_name_id _ _ _ L3). reflexivity.
      * assert (E : con = con1) by congruence. clear H. rewrite E, (extends_self _ _ X1), L. cbn [needed bind]. rewrite EX. reflexivity.
    + cbn [bind] in H. assert (E : con = set_name con1 "check_Laplace" 0) by congruence. clear H.
      assert (X3 : extends d con) by (rewrite E; now apply extends_set).
      assert (L3 : lookup "check_Laplace" con = Some 0) by (rewrite E, lookup_set; reflexivity). clear E.
      rewrite (extends_self _ _ X3). cbn [bind]. rewrite (set_name_id _ _ _ L3). reflexivity.
Qed.
Lemma C89_again_main control method con w : find_control_with_defaults control method = Ok (con, w) -> exists w', find_control_with_defaults con method = Ok (con, w').
Proof.
  intros H. destruct method as [|m [|m' ms]]; try discriminate. destruct (defaults m) as [d| | |] eqn:D.
  - exists (second_warning con d). exact (again_eq _ _ _ _ _ D H).
  - unfold find_control_with_defaults in H. rewrite D in H. discriminate.
  - unfold find_control_with_defaults in H. rewrite D in H. discriminate.
  - unfold find_control_with_defaults in H. rewrite D in H. discriminate.
Qed.

(** * Fits *)
Lemma C89_glmm_main X formula subforms data family link method control weights prev f lfun m meth con div un :
  glmm X formula subforms data family link method control weights prev = Ok (GlmmFit f lfun m meth con div un) ->
  method = [meth] /\ glmm X formula subforms data family link [meth] con weights prev = Ok (GlmmFit f lfun m meth con div un) /\
  find_lfun_glmm X family link m [meth] con = Ok lfun.
Proof.
  intros G. destruct (glmm_inv _ _ _ _ _ _ _ _ _ _ _ G) as (meth' & con' & w & m' & r & dv & lf & opt & div' & un' & _ & EM & C & M & R0 & D & LF & O & _ & E).
  assert (Q : meth = meth' /\ con = con' /\ m = m' /\ lfun = lf) by (destruct (forallb _ _); [injection E; intros; subst; tauto|discriminate]).
  destruct Q as (-> & -> & -> & ->). split; [exact EM|]. subst method. destruct (C89_again_main _ _ _ _ C) as (w' & C'). split.
  - rewrite <- G. unfold glmm. rewrite C, C'. reflexivity.
  - unfold find_lfun_glmm. rewrite R0, D. cbn [bind]. rewrite C'. cbn [bind fst]. exact LF.
Qed.

(** * Warnings *)
Lemma C89_warning_main m : In m methods -> m <> "Laplace" -> exists con, find_control_with_defaults [] [m] = Ok (con, ([], [])) /\
  exists not_needed, find_control_with_defaults con [m] = Ok (con, ([], not_needed)) /\ In "check_Laplace" not_needed.
Proof.
  intros IM N. cbn [In methods] in IM. destruct IM as [<-|[<-|[<-|[<-|[]]]]]; [now destruct N| | |]; eexists; (split; [reflexivity|]); eexists.
  - split; [exact (again_eq [] "AGQ" _ ([], []) conAGQ eq_refl eq_refl)|now left].
  - split; [exact (again_eq [] "SR" _ ([], []) conSR eq_refl eq_refl)|right; now left].
  - split; [exact (again_eq [] "IS" _ ([], []) conIS eq_refl eq_refl)|now left].
Qed.
Lemma in_set n con k v : In n (map fst (set_name con k v)) <-> In n (map fst con) \/ n = k.
Proof. rewrite set_name_names. destruct (in_dec string_dec k (map fst con)) as [H|H]; [split; [tauto|intros [A| ->]; assumption]|]. rewrite in_app_iff. cbn [In]. split; intros A; decompose [or] A; subst; tauto. Qed.
Lemma in_sets n control : forall con, In n (map fst (set_names con control)) <-> In n (map fst con) \/ In n (map fst control).
Proof.
  unfold set_names. induction control as [|[k v] c IH]; intros con; cbn [fold_left map fst snd In]; [tauto|]. rewrite IH, in_set. split; intros A; decompose [or] A; subst; tauto.
Qed.
Lemma default_names m d : defaults m = Ok d -> map fst d = options_of m.
Proof.
  unfold defaults, options_of. destruct (String.eqb m "Laplace"); [intros H; injection H as <-; reflexivity|]. destruct (String.eqb m "AGQ"); [intros H; injection H as <-; reflexivity|].
  destruct (String.eqb m "SR"); [intros H; injection H as <-; reflexivity|]. destruct (String.eqb m "IS"); [intros H; injection H as <-; reflexivity|discriminate].
Qed.
Lemma con_names control m con w d : defaults m = Ok d -> find_control_with_defaults control [m] = Ok (con, w) ->
  forall n, In n (map fst con) <-> In n (options_of m) \/ In n (map fst control) \/ (m = "SR" /\ n = "nAGQ") \/ (m <> "Laplace" /\ n = "check_Laplace").
Proof.
  intros D H n. rewrite <- (default_names _ _ D). unfold find_control_with_defaults in H. rewrite D in H. cbn [bind] in H. pose proof (in_sets n control d) as I1. set (con1 := set_names d control) in *.
  destruct (String.eqb_spec m "SR") as [->|NS].
  - destruct (lookup "nSL" con1) as [nSL|]; [|discriminate]. cbn [needed bind negb String.eqb Ascii.eqb Bool.eqb] in H.
    assert (E : con = set_name (set_name con1 "nAGQ" (Rpower 2 (nSL + 1) - 1)) "check_Laplace" 0) by congruence. rewrite E, !in_set, I1.
    assert ("SR" <> "Laplace") by discriminate. tauto.
  - cbn [bind] in H. destruct (String.eqb_spec m "Laplace") as [->|NL]; cbn [negb] in H.
    + destruct (lookup "order" con1) as [o|]; [|discriminate]. cbn [needed bind] in H. destruct (exceeds o 1); cbn [bind] in H.
      * assert (E : con = set_name con1 "check_Laplace" 0) by congruence. rewrite E, in_set, I1.
        assert (K : n = "check_Laplace" -> In n (map fst d)) by (intros ->; injection D as <-; cbn; tauto). tauto.
      * assert (E : con = con1) by congruence. rewrite E, I1. tauto.
    + cbn [bind] in H. assert (E : con = set_name con1 "check_Laplace" 0) by congruence. rewrite E, in_set, I1. tauto.
Qed.
Lemma C89_warnings_main control m con unknown not_needed : find_control_with_defaults control [m] = Ok (con, (unknown, not_needed)) ->
  exists unknown' not_needed', find_control_with_defaults con [m] = Ok (con, (unknown', not_needed')) /\
  (forall n, In n unknown' <-> In n unknown) /\
  (forall n, In n not_needed' <-> In n not_needed \/ (m <> "Laplace" /\ n = "check_Laplace") \/ (m = "SR" /\ n = "nAGQ")).
Proof.
  intros H. destruct (C89_again_main _ _ _ _ H) as ([u' n'] & H'). exists u', n'. split; [exact H'|].
  destruct (defaults m) as [d| | |] eqn:D; try (unfold find_control_with_defaults in H; rewrite D in H; discriminate).
  assert (IM : In m methods).
  { unfold defaults in D. unfold methods. cbn [In]. destruct (String.eqb_spec m "Laplace"); [now left|]. destruct (String.eqb_spec m "AGQ"); [subst; tauto|].
    destruct (String.eqb_spec m "SR"); [subst; tauto|]. destruct (String.eqb_spec m "IS"); [subst; tauto|discriminate]. }
  destruct (C39_main control m IM) as (k1 & u1 & n1 & F1 & _ & _ & _ & _ & _ & _ & A1 & B1). rewrite H in F1. injection F1 as <- <- <-.
  destruct (C39_main con m IM) as (k2 & u2 & n2 & F2 & _ & _ & _ & _ & _ & _ & A2 & B2). rewrite H' in F2. injection F2 as <- <- <-.
  pose proof (con_names _ _ _ _ _ D H) as CN.
  assert (O1 : exists m', In m' methods /\ In "nAGQ" (options_of m')) by (exists "AGQ"; cbn; tauto).
  assert (O2 : exists m', In m' methods /\ In "check_Laplace" (options_of m')) by (exists "Laplace"; cbn; tauto).
  assert (O3 : forall n, In n (options_of m) -> exists m', In m' methods /\ In n (options_of m')) by (intros n I; now exists m).
  split; intros n.
  - rewrite A1, A2, CN. split.
    + intros [[I|[I|[[_ ->]|[_ ->]]]] N]; [now destruct (N (O3 n I))|tauto|now destruct (N O1)|now destruct (N O2)].
    + tauto.
  - rewrite B1, B2, CN. split.
    + intros ([I|[I|[[-> ->]|[N ->]]]] & E & NI); tauto.
    + intros [(I & E & NI)|[[N ->]|[-> ->]]].
      * tauto.
      * split; [tauto|]. split; [exact O2|]. destruct IM as [<-|[<-|[<-|[<-|[]]]]]; [now destruct N| | |]; cbn; intros [[=]|[]].
      * split; [tauto|]. split; [exact O1|]. cbn. intros [[=]|[]].
Qed.
