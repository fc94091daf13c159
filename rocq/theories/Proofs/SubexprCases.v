(** Cases for the substituted expressions. *)
From Coq Require Import String List Reals Bool Arith ZArith Lia Lra.
From Verif Require Import Model.Base Model.Indexing Model.Subexpr Spec.IndexSpec Spec.SubexprSpec Proofs.SubexprLemmas Proofs.FrameMain Proofs.SubexprMain.
Import ListNotations.
Local Open Scope string_scope.
Local Open Scope R_scope.

Definition no_other (f : string) (args : list (list R)) : outcome (list R) := Throw RuntimeError.

(** s * a[i, t] - a[j, u], with s a single number. *)
Definition case_e : rexpr :=
  Call [Name "-"; Call [Name "*"; Name "s"; Call [Name "["; Name "a"; Name "i"; Name "t"]]; Call [Name "["; Name "a"; Name "j"; Name "u"]].
Definition case_data : env :=
  [("s", Vec [3]); ("i", Codes [1%Z; 2%Z]); ("t", Codes [1%Z; 2%Z]); ("j", Codes [2%Z; 1%Z]); ("u", Codes [1%Z; 1%Z])].
Definition case_base : mframe := mkMframe 1 [[1]; [2]; [3]; [4]] 2 (Some [[1; 0]; [0; 1]; [1; 0]; [0; 1]]).
Definition case_flat : list (list string) := [["i"; "t"]; ["j"; "u"]].

Lemma Int_IZR1 z : Int_part (IZR z) = z.
Proof. pose proof (Int_IZR [z]) as H. cbn [map] in H. now injection H. Qed.

Ltac names := repeat match goal with H : _ \/ _ |- _ => destruct H as [H|H] | H : False |- _ => destruct H end.
Ltac plain_tac := intros s v H; cbn [In] in H; names; injection H as <- <-; exact I.

Ltac subs := intros vs Hvs; cbv in Hvs; injection Hvs as <-; cbn; repeat constructor; lia.

Ltac mults := cbn [all_calls multipliers]; repeat match goal with |- _ /\ _ => split | |- True => exact I end; try (intros [E|E]; discriminate E).

Lemma C41_case_main : exists f, parse_sub no_other "a" case_base [2%Z; 2%Z] case_data case_e = Ok (Frame f) /\
  rows_of f = 2%nat /\ matrices case_base /\ plain case_data /\ find_dim_sub "a" None case_e = Ok (Some 2%nat) /\
  extract_to_flatten "a" case_e = Ok case_flat /\ no_clash case_e case_flat /\ all_calls (no_function "a") case_e /\
  all_calls (subscripts no_other case_data "a" [2%Z; 2%Z]) case_e /\
  all_calls (multipliers no_other case_data "a" (random case_base) [2%Z; 2%Z] (lin [1] [1; -1] case_base)) case_e.
Proof.
  unfold case_e, case_data, case_base. eexists. split; [|].
  { unfold parse_sub. cbn [modify_subexpr]. cbv -[IZR Int_part Rplus Rmult Ropp index_fr times_fr plus_fr minus_fr]. rewrite !Int_IZR1.
    cbv -[IZR Int_part Rplus Rmult Ropp]. reflexivity. }
  split; [reflexivity|]. split; [split; [repeat constructor|split; [reflexivity|repeat constructor]]|]. split; [plain_tac|].
  split; [reflexivity|]. split; [reflexivity|]. split.
  { split; [intros n Hn; cbn [In case_flat] in Hn; names; subst n; reflexivity|].
    intros n m Hn Hm. cbn [In case_flat] in Hn, Hm. names; subst n m; intros E; try reflexivity; discriminate E. }
  split; [cbn [all_calls no_function]; repeat split; discriminate|]. split.
  { cbn [all_calls]. repeat split; try (intros; discriminate); cbn [subscripts].
    all: try (repeat constructor; fail). all: subs. }
  mults. intros _. split; intros O1 O2 v Hv; [discriminate O1|]. cbn in Hv. injection Hv as <-. now left.
Qed.

(** w * a[i], with two observations of the first level. *)
Lemma C41_vector_main : exists other data subvar base dims e f beta b,
  matrices base /\ rows_of base = length (grid dims) /\ plain data /\
  find_dim_sub subvar None e = Ok (Some (length dims)) /\ extract_to_flatten subvar e = Ok [] /\
  all_calls (no_function subvar) e /\ all_calls (subscripts other data subvar dims) e /\
  parse_sub other subvar base dims data e = Ok (Frame f) /\
  exists v, meaning other data subvar dims (lin beta b base) e = Ok v /\ length v = rows_of f /\ v <> lin beta b f.
Proof.
  exists no_other, [("w", Vec [1; 2]); ("i", Codes [1%Z; 1%Z])], "a", (mkMframe 1 [[0]; [0]] 2 (Some [[1; 0]; [0; 1]])), [2%Z],
    (Call [Name "*"; Name "w"; Call [Name "["; Name "a"; Name "i"]]).
  eexists. exists [0], [1; 0]. split; [split; [repeat constructor|split; [reflexivity|repeat constructor]]|]. split; [reflexivity|].
  split; [plain_tac|]. split; [reflexivity|]. split; [reflexivity|]. split; [cbn [all_calls no_function]; repeat split; discriminate|].
  split; [cbn [all_calls subscripts]; repeat match goal with |- _ /\ _ => split | |- True => exact I end; try (intros; discriminate); intros _ L; cbn [length] in L; lia|].
  split; [cbv -[IZR Int_part Rplus Rmult Ropp]; reflexivity|]. eexists.
  split; [cbv -[IZR Int_part Rplus Rmult Ropp]; reflexivity|]. split; [reflexivity|].
  intros E. cbv -[IZR Int_part Rplus Rmult Ropp] in E. injection E as _ E. lra.
Qed.

(** x_t * a[x, t]. *)
Lemma C41_clash_main : exists other data subvar base dims e flat f beta b,
  matrices base /\ rows_of base = length (grid dims) /\ plain data /\
  find_dim_sub subvar None e = Ok (Some (length dims)) /\ extract_to_flatten subvar e = Ok flat /\
  all_calls (no_function subvar) e /\ all_calls (subscripts other data subvar dims) e /\
  all_calls (multipliers other data subvar (random base) dims (lin beta b base)) e /\
  parse_sub other subvar base dims data e = Ok (Frame f) /\
  exists v, meaning other data subvar dims (lin beta b base) e = Ok v /\ length v = rows_of f /\ v <> lin beta b f.
Proof.
  exists no_other, [("x_t", Vec [5]); ("x", Codes [1%Z]); ("t", Codes [1%Z])], "a", (mkMframe 1 [[1]] 1 (Some [[1]])), [1%Z; 1%Z],
    (Call [Name "*"; Name "x_t"; Call [Name "["; Name "a"; Name "x"; Name "t"]]), [["x"; "t"]].
  eexists. exists [1], [0]. split; [split; [repeat constructor|split; [reflexivity|repeat constructor]]|]. split; [reflexivity|].
  split; [plain_tac|]. split; [reflexivity|]. split; [reflexivity|]. split; [cbn [all_calls no_function]; repeat split; discriminate|].
  split; [cbn [all_calls]; repeat split; try (intros; discriminate); try (repeat constructor; fail); subs|].
  split.
  { mults. intros _. split; intros O1 O2 v Hv; [discriminate O1|]. cbn in Hv. injection Hv as <-. now left. }
  split.
  { cbv -[IZR Int_part Rplus Rmult Ropp index_fr times_fr plus_fr minus_fr]. rewrite !Int_IZR1. cbv -[IZR Int_part Rplus Rmult Ropp]. reflexivity. }
  eexists. split; [cbv -[IZR Int_part Rplus Rmult Ropp]; reflexivity|]. split; [reflexivity|].
  intros E. cbv -[IZR Int_part Rplus Rmult Ropp] in E. injection E as E. lra.
Qed.
