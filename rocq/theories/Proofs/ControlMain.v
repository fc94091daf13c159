From Coq Require Import String List Reals Lra Bool.
From Verif Require Import Model.Base Model.Control Spec.ControlSpec.
Import ListNotations.
Local Open Scope string_scope.
Local Open Scope R_scope.

Lemma lookup_set con name v other : lookup other (set_name con name v) = if String.eqb name other then Some v else lookup other con.
Proof.
  unfold lookup. induction con as [|[n x] con IH]; cbn [set_name find fst snd].
  - now destruct (String.eqb name other).
  - destruct (String.eqb_spec n name) as [->|N]; cbn [find fst snd].
    + now destruct (String.eqb name other).
    + destruct (String.eqb_spec n other) as [->|M].
      * destruct (String.eqb_spec name other); [congruence|reflexivity].
      * exact IH.
Qed.
Lemma lookup_sets control : forall con name, lookup name (set_names con control) = match given name control with Some v => Some v | None => lookup name con end.
Proof.
  unfold set_names. induction control as [|[n v] c IH]; intros con name; cbn [fold_left given fst snd]; [reflexivity|].
  rewrite IH, lookup_set. destruct (given name c); [reflexivity|]. now destruct (String.eqb n name).
Qed.
Lemma is_in_In x l : is_in x l = true <-> In x l.
Proof. unfold is_in. rewrite existsb_exists. split; [intros (y & H & E); apply String.eqb_eq in E; now subst|intros H; exists x; split; [easy|apply String.eqb_refl]]. Qed.

(** The value of an option after the defaults and the user's list. *)
Definition setting (con control : named) (name : string) : option R := match given name control with Some v => Some v | None => lookup name con end.

Lemma find_eq control m con : defaults m = Ok con -> (m = "SR" -> lookup "nSL" con <> None) -> (m = "Laplace" -> lookup "order" con <> None) ->
  exists con3, find_control_with_defaults control [m] = Ok (con3, (map fst (filter (fun e => negb (is_in (fst e) (map fst con_tot))) control),
     map fst (filter (fun e => negb (is_in (fst e) (map fst con))) (filter (fun e => is_in (fst e) (map fst con_tot)) control)))) /\
  forall name, lookup name con3 =
    if (String.eqb name "nAGQ" && String.eqb m "SR")%bool then
      match setting con control "nSL" with Some l => Some (Rpower 2 (l + 1) - 1) | None => None end
    else if (String.eqb name "check_Laplace" && (negb (String.eqb m "Laplace") || match setting con control "order" with Some o => exceeds o 1 | None => false end))%bool then Some 0
    else setting con control name.
Proof.
  intros D HS HL. unfold find_control_with_defaults. rewrite D. cbn [bind].
  set (con1 := set_names con control).
  assert (L1 : forall name, lookup name con1 = setting con control name) by (intros; apply lookup_sets).
  assert (E : forall a b : string, String.eqb a b = String.eqb b a) by (intros; apply String.eqb_sym).
  destruct (String.eqb_spec m "SR") as [->|NS].
  - rewrite L1. specialize (HS eq_refl). assert (HX : exists l, setting con control "nSL" = Some l).
    { unfold setting. destruct (given "nSL" control); [eauto|]. destruct (lookup "nSL" con); [eauto|easy]. }
    destruct HX as (l & El). rewrite El. cbn [needed bind]. cbn [negb String.eqb Ascii.eqb Bool.eqb]. cbn [bind]. eexists. split; [reflexivity|].
    intros name. rewrite !lookup_set, L1. rewrite (E "check_Laplace" name), (E "nAGQ" name).
    destruct (String.eqb_spec name "check_Laplace") as [->|N]; [reflexivity|]. cbn [andb]. now destruct (String.eqb name "nAGQ").
  - cbn [bind]. destruct (String.eqb_spec m "Laplace") as [->|NL]; cbn [negb].
    + rewrite L1. specialize (HL eq_refl). assert (HX : exists o, setting con control "order" = Some o).
      { unfold setting. destruct (given "order" control); [eauto|]. destruct (lookup "order" con); [eauto|easy]. }
      destruct HX as (o & Eo). rewrite Eo. cbn [needed bind]. destruct (exceeds o 1); cbn [bind]; eexists; (split; [reflexivity|]); intros name.
      * rewrite lookup_set, L1, (E "check_Laplace" name). rewrite !andb_false_r. cbn [orb]. rewrite andb_true_r. now destruct (String.eqb name "check_Laplace").
      * rewrite L1, !andb_false_r. reflexivity.
    + cbn [bind]. eexists. split; [reflexivity|]. intros name. rewrite lookup_set, L1, (E "check_Laplace" name), !andb_false_r. cbn [orb]. rewrite andb_true_r.
      now destruct (String.eqb name "check_Laplace").
Qed.

Lemma all_names n : In n (map fst con_tot) <-> exists m, In m methods /\ In n (options_of m).
Proof.
  split.
  - cbn. intros H. decompose [or] H; subst; try easy; [exists "Laplace"|exists "Laplace"|exists "Laplace"|exists "AGQ"|exists "SR"|exists "IS"]; cbn; tauto.
  - intros (m & Hm & Hn). cbn in Hm. decompose [or] Hm; subst; try easy; cbn in Hn; cbn; tauto.
Qed.

Lemma C39_main control m : In m methods -> exists con unknown not_needed,
  find_control_with_defaults control [m] = Ok (con, (unknown, not_needed)) /\
  (forall name, In name (options_of m) -> lookup name con <> None) /\
  (forall name v, given name control = Some v -> ~ (m = "SR" /\ name = "nAGQ") -> name <> "check_Laplace" -> lookup name con = Some v) /\
  (forall name, given name control = None -> In name (options_of m) -> name <> "check_Laplace" -> lookup name con = Some (documented_default name)) /\
  (m = "SR" -> exists level, lookup "nSL" con = Some level /\ lookup "nAGQ" con = Some (Rpower 2 (level + 1) - 1)) /\
  (m <> "Laplace" -> lookup "check_Laplace" con = Some 0) /\
  (m = "Laplace" -> exists order, lookup "order" con = Some order /\
     (1 < order -> lookup "check_Laplace" con = Some 0) /\
     (order <= 1 -> lookup "check_Laplace" con = Some (match given "check_Laplace" control with Some v => v | None => 0 end))) /\
  (forall name, In name unknown <-> In name (map fst control) /\ ~ exists m', In m' methods /\ In name (options_of m')) /\
  (forall name, In name not_needed <-> In name (map fst control) /\ (exists m', In m' methods /\ In name (options_of m')) /\ ~ In name (options_of m)).
Proof.
  intros Hm.
  assert (X : exists con, defaults m = Ok con /\ (m = "SR" -> lookup "nSL" con = Some 3) /\ (m = "Laplace" -> lookup "order" con = Some 1 /\ lookup "check_Laplace" con = Some 0) /\ map fst con = options_of m /\
    (forall name, In name (options_of m) -> name <> "check_Laplace" -> lookup name con = Some (documented_default name))).
  { cbn in Hm. decompose [or] Hm; subst; try easy; eexists; (split; [reflexivity|]); (split; [try discriminate; reflexivity|]); (split; [try discriminate; split; reflexivity|]); (split; [reflexivity|]);
    intros name Hn HC; cbn in Hn; decompose [or] Hn; subst; try easy. }
  destruct X as (con & D & HS & HL & N & Def).
  destruct (find_eq control m con D) as (con3 & E & V).
  { intros H. now rewrite HS. } { intros H. now rewrite (proj1 (HL H)). }
  assert (Ex : forall o, exceeds o 1 = true <-> 1 < o) by (intros o; unfold exceeds; destruct (Rlt_dec 1 o); split; easy).
  do 3 eexists. split; [exact E|]. split; [|split; [|split; [|split; [|split; [|split; [|split]]]]]].
  - intros name Hn. rewrite V. destruct (String.eqb name "nAGQ" && String.eqb m "SR")%bool eqn:B.
    { apply andb_true_iff in B. destruct B as [_ B]. apply String.eqb_eq in B. unfold setting. rewrite (HS B). now destruct (given "nSL" control). }
    destruct (String.eqb name "check_Laplace" && _)%bool; [easy|]. unfold setting. destruct (given name control); [easy|].
    destruct (string_dec name "check_Laplace") as [->|NC]; [|now rewrite Def].
    assert (m = "Laplace") as -> by (cbn in Hm; decompose [or] Hm; subst; try easy; cbn in Hn; decompose [or] Hn; easy). now rewrite (proj2 (HL eq_refl)).
  - intros name v G N1 N2. rewrite V. destruct (String.eqb name "nAGQ" && String.eqb m "SR")%bool eqn:B.
    { exfalso. apply N1. apply andb_true_iff in B. destruct B as [B1 B2]. apply String.eqb_eq in B1, B2. auto. }
    destruct (String.eqb_spec name "check_Laplace"); [easy|]. cbn [andb]. unfold setting. now rewrite G.
  - intros name G Hn NC. rewrite V. destruct (String.eqb name "nAGQ" && String.eqb m "SR")%bool eqn:B.
    { exfalso. apply andb_true_iff in B. destruct B as [B1 B2]. apply String.eqb_eq in B1, B2. subst. cbn in Hn. decompose [or] Hn; easy. }
    destruct (String.eqb_spec name "check_Laplace"); [easy|]. cbn [andb]. unfold setting. rewrite G. now apply Def.
  - intros ->. assert (exists l, setting con control "nSL" = Some l) as (l & El).
    { unfold setting. destruct (given "nSL" control); [eauto|]. rewrite (HS eq_refl). eauto. }
    exists l. rewrite !V. cbn [String.eqb Ascii.eqb Bool.eqb andb]. now rewrite El.
  - intros H. rewrite V. cbn [String.eqb Ascii.eqb Bool.eqb andb]. destruct (String.eqb_spec m "Laplace"); [easy|reflexivity].
  - intros ->. assert (exists o, setting con control "order" = Some o) as (o & Eo).
    { unfold setting. destruct (given "order" control); [eauto|]. rewrite (proj1 (HL eq_refl)). eauto. }
    exists o. rewrite !V. cbn [String.eqb Ascii.eqb Bool.eqb andb negb orb]. rewrite Eo. split; [reflexivity|]. split.
    + intros H. now rewrite (proj2 (Ex o) H).
    + intros H. destruct (exceeds o 1) eqn:B; [apply Ex in B; lra|]. unfold setting. destruct (given "check_Laplace" control); [easy|]. apply HL. reflexivity.
  - intros name. rewrite in_map_iff. split.
    + intros (e & <- & H). apply filter_In in H. destruct H as [H B]. split; [now apply in_map|]. rewrite <- all_names, <- is_in_In. now destruct (is_in (fst e) (map fst con_tot)).
    + intros [H B]. apply in_map_iff in H. destruct H as (e & <- & H). exists e. split; [easy|]. apply filter_In. split; [easy|].
      rewrite <- all_names, <- is_in_In in B. now destruct (is_in (fst e) (map fst con_tot)).
  - intros name. rewrite in_map_iff. rewrite N. split.
    + intros (e & <- & H). apply filter_In in H. destruct H as [H B]. apply filter_In in H. destruct H as [H K]. split; [now apply in_map|].
      rewrite <- all_names, <- is_in_In. split; [easy|]. rewrite <- is_in_In. now destruct (is_in (fst e) (options_of m)).
    + intros (H & K & B). apply in_map_iff in H. destruct H as (e & <- & H). exists e. split; [easy|]. apply filter_In. split.
      * apply filter_In. split; [easy|]. now rewrite <- all_names, <- is_in_In in K.
      * rewrite <- is_in_In in B. now destruct (is_in (fst e) (options_of m)).
Qed.

Lemma C39_unknown_main control method : (forall m, method = [m] -> ~ In m methods) -> find_control_with_defaults control method = Throw RuntimeError.
Proof.
  intros H. destruct method as [|m [|]]; try reflexivity. specialize (H m eq_refl). unfold find_control_with_defaults, defaults.
  destruct (String.eqb_spec m "Laplace") as [->|]; [cbn in H; tauto|]. destruct (String.eqb_spec m "AGQ") as [->|]; [cbn in H; tauto|].
  destruct (String.eqb_spec m "SR") as [->|]; [cbn in H; tauto|]. destruct (String.eqb_spec m "IS") as [->|]; [cbn in H; tauto|]. reflexivity.
Qed.

Lemma C39_documented_main : exists con w, find_control_with_defaults [] ["Laplace"] = Ok (con, w) /\
  lookup "check_Laplace" con = Some 0 /\ documented_default "check_Laplace" = 1.
Proof.
  destruct (C39_main [] "Laplace") as (con & u & v & E & _ & _ & D & _ & _ & C & _); [now left|]. exists con, (u, v). split; [exact E|].
  destruct (C eq_refl) as (order & O & _ & C2). rewrite (D "order") in O; [|reflexivity|cbn; tauto|discriminate]. injection O as <-.
  split; [|reflexivity]. apply C2. cbn. lra.
Qed.
