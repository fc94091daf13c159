(** Cases for the expressions that are accepted and refused. *)
From Coq Require Import String List Reals Bool Arith ZArith Lia Lra.
From Verif Require Import Model.Base Model.Indexing Model.Subexpr Spec.IndexSpec Spec.SubexprSpec Spec.LinearSpec Proofs.SubexprMain Proofs.SubexprCases.
Import ListNotations.
Local Open Scope string_scope.
Local Open Scope R_scope.
Notation length := List.length.

(** s * a[i, t] - a[j, u]. *)
Lemma C78_case_main : exists g, linear no_other case_data "a" [2%Z; 2%Z] (random case_base) (mf_p case_base) case_e 2 g /\
  matrices case_base /\ rows_of case_base = length (grid [2%Z; 2%Z]) /\ (forall flat, extract_to_flatten "a" case_e = Ok flat -> no_clash case_e flat) /\
  plain case_data /\ (forall s v, In (s, v) case_data -> s <> "a") /\ all_calls (no_function "a") case_e /\ occurs "a" case_e = true /\
  g [1; 2; 4; 8] = [1; 23].
Proof.
  eexists. split.
  { unfold case_e. apply linear_minus.
    - eapply linear_times_left with (v := [3]).
      + split; [reflexivity|]. split; reflexivity.
      + now left.
      + apply (linear_variable no_other case_data "a" [2%Z; 2%Z] (random case_base) (mf_p case_base) ["i"; "t"] [[1%Z; 2%Z]; [1%Z; 2%Z]] 2).
        * discriminate.
        * reflexivity.
        * cbn [In]. intros [E|[E|[]]]; discriminate E.
        * repeat constructor; eexists; (split; [reflexivity|reflexivity]).
        * repeat constructor.
        * cbn. repeat constructor; lia.
    - apply (linear_variable no_other case_data "a" [2%Z; 2%Z] (random case_base) (mf_p case_base) ["j"; "u"] [[2%Z; 1%Z]; [1%Z; 1%Z]] 2).
      + discriminate.
      + reflexivity.
      + cbn [In]. intros [E|[E|[]]]; discriminate E.
      + repeat constructor; eexists; (split; [reflexivity|reflexivity]).
      + repeat constructor.
      + cbn. repeat constructor; lia. }
  destruct C41_case_main as (f & _ & _ & M & P & _ & X & NC & NF & _). split; [exact M|]. split; [reflexivity|].
  split; [intros flat E; rewrite X in E; injection E as <-; exact NC|]. split; [exact P|].
  split; [intros s v H; cbn [In case_data] in H; names; injection H as <- <-; discriminate|]. split; [exact NF|]. split; [reflexivity|].
  lazy -[Rplus Rminus Rmult IZR]. f_equal; [|f_equal]; lra.
Qed.

(** s * (a[i] - a[j]), and - a[i]. *)
Definition case_index (s : string) : rexpr := Call [Name "["; Name "a"; Name s].
Definition case_difference : rexpr := Call [Name "-"; case_index "i"; case_index "j"].
Definition case_data1 : env := [("s", Vec [3]); ("i", Codes [1%Z; 2%Z]); ("j", Codes [2%Z; 1%Z])].
Definition case_base1 : mframe := mkMframe 1 [[1]; [2]] 0 None.
Theorem C78_brackets_main : exists other data subvar base dims c e f,
  matrices base /\ rows_of base = length (grid dims) /\ plain data /\
  (exists n g, linear other data subvar dims (random base) (mf_p base) e n g) /\ (exists h, parse_sub other subvar base dims data e = Ok (Frame h)) /\
  parse_sub other subvar base dims data (Call [Name "*"; c; Call [Name "("; e]]) = Throw RuntimeError /\
  (forall eta, length eta = rows_of base -> exists v, meaning other data subvar dims eta (Call [Name "*"; c; Call [Name "("; e]]) = Ok v /\ length v = 2%nat) /\
  (exists n g, linear other data subvar dims (random base) (mf_p base) f n g) /\ (exists h, parse_sub other subvar base dims data f = Ok (Frame h)) /\
  parse_sub other subvar base dims data (Call [Name "-"; f]) = Throw RuntimeError /\
  (forall eta, length eta = rows_of base -> exists v, meaning other data subvar dims eta (Call [Name "-"; f]) = Ok v /\ length v = 2%nat).
Proof.
  assert (LI : forall s i, In (s, Codes i) case_data1 -> get case_data1 s = Ok (Codes i) -> s <> "a" -> length i = 2%nat -> List.Forall (within [2%Z]) (tuples 2 [i]) ->
     linear no_other case_data1 "a" [2%Z] (random case_base1) (mf_p case_base1) (case_index s) 2 (fun eta => map (element [2%Z] eta) (tuples 2 [i]))).
  { intros s i H G N L W. apply (linear_variable no_other case_data1 "a" [2%Z] (random case_base1) (mf_p case_base1) [s] [i] 2).
    - discriminate.
    - reflexivity.
    - cbn [In]. intros [E|[]]. now apply N.
    - constructor; [|constructor]. eexists. split; [exact G|reflexivity].
    - constructor; [exact L|constructor].
    - exact W. }
  assert (L1 : exists g, linear no_other case_data1 "a" [2%Z] (random case_base1) (mf_p case_base1) (case_index "i") 2 g).
  { eexists. apply (LI "i" [1%Z; 2%Z]); [right; now left|reflexivity|discriminate|reflexivity|cbn; repeat constructor; lia]. }
  assert (L2 : exists g, linear no_other case_data1 "a" [2%Z] (random case_base1) (mf_p case_base1) (case_index "j") 2 g).
  { eexists. apply (LI "j" [2%Z; 1%Z]); [right; right; now left|reflexivity|discriminate|reflexivity|cbn; repeat constructor; lia]. }
  destruct L1 as [g1 L1]. destruct L2 as [g2 L2].
  exists no_other, case_data1, "a", case_base1, [2%Z], (Name "s"), case_difference, (case_index "i").
  split; [split; [repeat constructor|exact I]|]. split; [reflexivity|]. split; [unfold case_data1; plain_tac|].
  split; [exists 2%nat; eexists; exact (linear_minus _ _ _ _ _ _ _ _ _ _ _ L1 L2)|].
  split; [eexists; lazy -[Rplus Rmult IZR]; reflexivity|]. split; [reflexivity|].
  split; [intros [|x [|y [|]]] L; try discriminate L; eexists; (split; [lazy -[Rplus Rminus Rmult IZR]; reflexivity|reflexivity])|].
  split; [exists 2%nat, g1; exact L1|].
  split; [eexists; lazy -[Rplus Rmult IZR]; reflexivity|]. split; [reflexivity|].
  intros [|x [|y [|]]] L; try discriminate L; eexists; (split; [lazy -[Rplus Rminus Rmult IZR Ropp]; reflexivity|reflexivity]).
Qed.
