(** Cases for formulas with subformulas. *)
From Coq Require Import String List Reals Bool Arith ZArith Permutation Sorted Lia Lra.
From Verif Require Import Model.Base Model.Family Model.GLMM Model.SplitFrame Model.Frames Model.Indexing Model.Subexpr Model.FindIndices Model.Flatten
  Model.SplitFormula Model.FindModfr Spec.Numbers Spec.IndexSpec Spec.GLMMSpec Spec.SplitSpec Spec.FramesSpec Spec.SubexprSpec Spec.FlattenSpec Spec.FindModfrSpec
  Proofs.SubexprLemmas Proofs.SubMatchMain Proofs.FrameMain Proofs.FindModfrMain.
Import ListNotations.
Local Open Scope string_scope.
Local Open Scope R_scope.
Notation length := List.length.

Lemma Forall2_at {A B} (P : A -> B -> Prop) l1 l2 i a : Forall2 P l1 l2 -> nth_error l1 i = Some a -> exists b, nth_error l2 i = Some b /\ P a b.
Proof. intros H. revert i. induction H as [|x y l1 l2 H _ IH]; intros [|i] E; try discriminate; [injection E as <-; now exists y|now apply IH]. Qed.
Lemma combine_at {A B} (l1 : list A) (l2 : list B) i a b : nth_error l1 i = Some a -> nth_error l2 i = Some b -> In (a, b) (combine l1 l2).
Proof. revert l2 i. induction l1 as [|x l1 IH]; intros [|y l2] [|i] E1 E2; try discriminate; [injection E1 as <-; injection E2 as <-; now left|right; now apply (IH l2 i)]. Qed.

Theorem C74_no_sub_main other parse_formula parse_subformula sparse formula subforms data form0 :
  split_formula formula = Ok (form0, []) -> find_modfr_glmm other parse_formula parse_subformula sparse formula subforms data = parse_formula form0.
Proof. intros E. unfold find_modfr_glmm. rewrite E. cbn [bind fst snd]. now destruct (parse_formula form0). Qed.

Theorem C74_unused_main other parse_formula parse_subformula sparse formula subforms data form0 subexprs f s :
  split_formula formula = Ok (form0, subexprs) -> subexprs <> [] -> In f subforms -> find_subvar f = Ok s -> (forall e, In e subexprs -> occurs s e = false) ->
  forall m, find_modfr_glmm other parse_formula parse_subformula sparse formula subforms data <> Ok m.
Proof.
  intros ES NE I S O m H. unfold find_modfr_glmm in H. rewrite ES in H. cbn [bind fst snd] in H. apply bind_Ok in H. destruct H as (m0 & E0 & H).
  assert (H' : (subvars <- mapM find_subvar subforms ;; subs <- match_subform_subexpr subvars subexprs ;;
    modfr_list <- mapM (fun fs => parse_sub_full other parse_subformula sparse data (fst fs) (snd fs)) (combine subforms subs) ;; attach_subframes Rnum m0 modfr_list) = Ok m)
    by (destruct subexprs; [easy|exact H]). clear H. rename H' into H.
  apply bind_Ok in H. destruct H as (subvars & Ev & H). apply bind_Ok in H. destruct H as (subs & Es & H). apply bind_Ok in H. destruct H as (xs & Ex & _).
  assert (Nv : subvars <> []) by (intros ->; apply mapM_Forall2 in Ev; inversion Ev; subst; destruct I).
  destruct (match_spec subvars subexprs subs Nv Es) as [M1 M2]. apply mapM_Forall2 in Ev.
  apply In_nth_error in I. destruct I as [i I]. destruct (Forall2_at _ _ _ i f Ev I) as (s' & Is & Hs). assert (s' = s) by congruence. subst s'.
  destruct (Forall2_at _ _ _ i s M2 Is) as (o & Io & Ho).
  destruct (mapM_In _ _ _ (f, o) Ex) as (x & Hx & _); [exact (combine_at _ _ i f o I Io)|]. cbn [fst snd] in Hx. destruct o as [e|]; [|discriminate Hx]. specialize (Ho e eq_refl).
  assert (Ie : In e (filter (fun x => String.eqb (first subvars x) s) subexprs)) by (rewrite Ho; now left). apply filter_In in Ie. destruct Ie as [Ie Fe]. apply String.eqb_eq in Fe.
  destruct (M1 e Ie) as [_ Oe]. rewrite Fe, (O e Ie) in Oe. discriminate.
Qed.

(** A sparse matrix with all the places stored. *)
Definition case_sparse (q : nat) (cols : list (list R)) : csc R := mkCsc q (map (fun c => combine (seq 0 q) c) cols).
Lemma filter_place c : forall a r, (a <= r < a + length c)%nat -> fold_right Rplus 0 (map snd (filter (fun e => Nat.eqb (fst e) r) (combine (seq a (length c)) c))) = nth (r - a) c 0.
Proof.
  induction c as [|x c IH]; intros a r B; cbn [length] in *; [lia|]. cbn [seq combine filter fst]. destruct (Nat.eqb_spec a r) as [->|N].
  - cbn [map fold_right snd]. rewrite Nat.sub_diag. cbn [nth]. rewrite <- (Rplus_0_r x) at 2. f_equal. clear.
    assert (G : forall b, (r < b)%nat -> filter (fun e : nat * R => Nat.eqb (fst e) r) (combine (seq b (length c)) c) = []).
    { induction c as [|y c IH]; intros b Hb; [reflexivity|]. cbn [length seq combine filter fst]. destruct (Nat.eqb_spec b r); [lia|]. apply IH. lia. }
    rewrite G by lia. reflexivity.
  - rewrite IH by lia. replace (r - a)%nat with (S (r - S a)) by lia. reflexivity.
Qed.
Lemma case_sparse_makes : makes_sparse case_sparse.
Proof.
  intros q cols H. unfold same_matrix, case_sparse. cbn [cs_rows cs_cols]. rewrite map_length. refine (conj eq_refl (conj eq_refl (conj _ _))).
  - intros c e Hc He. apply in_map_iff in Hc. destruct Hc as (c' & <- & _). destruct e as [i x]. apply in_combine_l in He. apply in_seq in He. cbn [fst]. lia.
  - intros r c Hr Hc. unfold SplitSpec.entry. cbn [cs_cols]. change (@nil (nat * R)) with (combine (seq 0 q) (@nil R)) at 1 || idtac.
    rewrite (nth_indep _ [] ((fun c => combine (seq 0 q) c) [])) by now rewrite map_length. rewrite (map_nth (fun c => combine (seq 0 q) c)).
    rewrite Forall_forall in H. assert (L : length (nth c cols []) = q) by (apply H, nth_In, Hc).
    pose proof (filter_place (nth c cols []) 0 r) as F. rewrite L, Nat.sub_0_r in F. apply F. lia.
Qed.

(** Wins of p1 over p2, of three players with a covariate x and random effects:
    y ~ Sub(a[p1] - a[p2]), a[p] ~ 0 + x[p] + (1 | p). *)
Definition at1 (a i : string) : rexpr := Call [Name "["; Name a; Name i].
Definition case_e : rexpr := Call [Name "-"; at1 "a" "p1"; at1 "a" "p2"].
Definition case_formula : rexpr := Call [Name "~"; Name "y"; Call [Name "Sub"; case_e]].
Definition case_subform : rexpr :=
  Call [Name "~"; at1 "a" "p"; Call [Name "+"; Call [Name "+"; Const 0; at1 "x" "p"]; Call [Name "("; Call [Name "|"; Const 1; Name "p"]]]].
Definition case_data : data_list :=
  [("p1", VFac [Some 1%Z; Some 3%Z] ["A"; "B"; "C"]); ("p2", VFac [Some 2%Z; Some 2%Z] ["A"; "B"; "C"]); ("x", VNum [1; 2; 4] [])].
Definition case_re : retrms Rnum :=
  mkRe Rnum (mkCsc 3 [[(0%nat, 1)]; [(1%nat, 1)]; [(2%nat, 1)]]) [1] [1%Z; 1%Z; 1%Z] [Zero] (mkCsc 3 [[(0%nat, 1)]; [(1%nat, 1)]; [(2%nat, 1)]]).
Definition case_base : modfr Rnum := mkModfr Rnum [[1]; [2]; [4]] 1 (Some case_re) (Numeric Rnum []) None.
Definition case_m0 : modfr Rnum := mkModfr Rnum [[]; []] 0 None (Numeric Rnum [1; 0]) None.
Definition case_formula_frame (f : rexpr) : outcome (modfr Rnum) := Ok case_m0.
Definition case_sub_frame (f : rexpr) (vars : variables R) : outcome (modfr Rnum) :=
  match f with
  | Call [_; Name s; _] => a <- fetch R vars s ;; if Nat.eqb (length (a_elems R a)) 3 then Ok case_base else Throw RuntimeError
  | _ => Throw RuntimeError
  end.
Definition case_other (f : string) (args : list (list R)) : outcome (list R) := Throw RuntimeError.
Lemma case_base_proper : proper 3 case_base.
Proof.
  constructor.
  - reflexivity.
  - intros row H. cbn in H. destruct H as [<-|[<-|[<-|[]]]]; reflexivity.
  - intros r [= <-]. constructor; cbn [case_re rt_Zt rt_Lambdat rt_Lind rt_theta cs_cols cs_rows].
    + reflexivity.
    + intros c e Hc He. cbn in Hc. destruct Hc as [<-|[<-|[<-|[]]]]; cbn in He; destruct He as [<-|[]]; cbn; lia.
    + reflexivity.
    + reflexivity.
    + intros c Hc. cbn in Hc. destruct Hc as [<-|[<-|[<-|[]]]]; repeat constructor.
    + intros c e Hc He. cbn in Hc. destruct Hc as [<-|[<-|[<-|[]]]]; cbn in He; destruct He as [<-|[]]; cbn; lia.
    + reflexivity.
    + intros l Hl. cbn in Hl. cbn [length]. lia.
Qed.
Lemma case_sub_frame_makes : makes_frames case_sub_frame.
Proof.
  intros s rhs vars m a H F. unfold case_sub_frame in H. rewrite F in H. cbn [bind] in H. destruct (Nat.eqb_spec (length (a_elems R a)) 3) as [E|]; [|discriminate].
  injection H as <-. rewrite E. exact case_base_proper.
Qed.
Definition case_part : part := mkPart "a" case_e [("p", 3%Z)] case_data case_base.
Lemma case_split : split_formula case_formula = Ok (Call [Name "~"; Name "y"; Const 0], [case_e]).
Proof. reflexivity. Qed.
Lemma case_found : exists m, find_modfr_glmm case_other case_formula_frame case_sub_frame case_sparse case_formula [case_subform] case_data = Ok m.
Proof. eexists. lazy -[Rnum]. reflexivity. Qed.
Lemma case_m0_proper : proper 2 case_m0.
Proof. constructor; [reflexivity| |discriminate]. intros row H. cbn in H. destruct H as [<-|[<-|[]]]; reflexivity. Qed.
Lemma case_indices : find_indices_subform "a" case_subform case_e (columns case_data) = Ok (columns case_data, [("p", Levels ["A"; "B"; "C"])]).
Proof. lazy. reflexivity. Qed.
Lemma case_flat : exists flat, flatten_formula 1 case_subform = Ok flat /\ case_sub_frame flat (data_subform R IZR 0 [("p", 3%Z)] "a" (covariates case_data)) = Ok case_base.
Proof. eexists. split; reflexivity. Qed.
Lemma case_part_of p : part_of case_sub_frame case_data [case_e] case_subform p <-> p = case_part.
Proof.
  split.
  - intros [A1 A2 A3 (d & idx & B1 & B2 & B3) (flat & C1 & C2)]. destruct p as [s e ix dat fr]. cbn [pa_var pa_expr pa_indices pa_data pa_frame] in *.
    assert (s = "a") by (cbn in A1; congruence). subst s. destruct A2 as [<-|[]]. rewrite case_indices in B1. injection B1 as <- <-. cbn [map fst snd index_length length] in B2. subst ix.
    assert (dat = case_data).
    { destruct B3 as [E F]. unfold case_data in E, F. repeat match goal with H : Forall2 _ (_ :: _) _ |- _ => inversion H; clear H; subst | H : Forall2 _ [] _ |- _ => inversion H; clear H; subst end.
      repeat match goal with y : (string * variable)%type |- _ => destruct y end. cbn [columns map fst snd column_of] in *.
      repeat match goal with H : _ \/ _ |- _ => destruct H as [H|(? & ? & H)]; subst; cbn [column_of] in E; try discriminate end; injection E; intros; subst; reflexivity. }
    subst dat.
    destruct case_flat as (flat' & F1 & F2). cbn [length] in C1. assert (flat' = flat) by congruence. subst flat'.
    change (Z.of_nat 3) with 3%Z in C2. assert (fr = case_base) by congruence. now subst fr.
  - intros ->. constructor; cbn [case_part pa_var pa_expr pa_indices pa_data pa_frame].
    + reflexivity.
    + now left.
    + reflexivity.
    + exists (columns case_data), [("p", Levels ["A"; "B"; "C"])]. refine (conj case_indices (conj eq_refl (conj eq_refl _))). repeat constructor.
    + exact case_flat.
Qed.
Lemma case_usable : usable case_other case_part.
Proof.
  constructor; unfold pa_dims; cbn [case_part pa_var pa_expr pa_indices pa_data pa_frame].
  - intros flat [= <-]. split; [intros n []|intros n m []].
  - cbn. repeat split; discriminate.
  - cbn. repeat split; intros; try lia; discriminate.
  - intros beta theta u. cbn. repeat match goal with |- True => exact I | |- _ \/ _ -> _ => let Q := fresh in intros [Q|Q]; discriminate Q | |- _ /\ _ => split end.
Qed.

(** Two subformulas of the same variable. *)
Lemma C74_same_variable_main : exists m, find_modfr_glmm case_other case_formula_frame case_sub_frame case_sparse case_formula [case_subform; case_subform] case_data = Ok m /\
  split_formula case_formula = Ok (Call [Name "~"; Name "y"; Const 0], [case_e]) /\ mo_p _ m = 2%nat /\ nrandom m = 6%nat /\ mo_p _ case_m0 = O /\ nrandom case_m0 = O /\ mo_p _ case_base = 1%nat /\ nrandom case_base = 3%nat.
Proof.
  eexists. split; [lazy -[Rnum]; reflexivity|]. refine (conj eq_refl _). repeat split; reflexivity.
Qed.

(** The rows of the subformula: x, and which of the players it is. *)
Definition case_fn (f : string) (args : list R) : R :=
  let k := if String.eqb f "first" then 1%Z else if String.eqb f "second" then 2%Z else 3%Z in
  if Z.eqb (Int_part (hd 0 args)) k then 1 else 0.
Definition case_xs : list rexpr := [at1 "x" "p"].
Definition case_zs : list rexpr := [Call [Name "first"; Name "p"]; Call [Name "second"; Name "p"]; Call [Name "third"; Name "p"]].
Definition case_V (s : string) : option (var R) :=
  if String.eqb s "p" then Some (Index 0) else if String.eqb s "x" then Some (Array [3%Z] (fun t => nth (Z.to_nat (hd 0%Z t - 1)) [1; 2; 4] 0)) else None.
Lemma Int_part_IZR z : Int_part (IZR z) = z.
Proof. pose proof (SubexprMain.Int_IZR [z]) as H. cbn [map] in H. congruence. Qed.
Lemma case_described : described R [("p", 3%Z)] "a" (covariates case_data) case_V.
Proof.
  constructor; cbn [map fst snd].
  - repeat constructor; intros [].
  - intros [H|[]]. discriminate.
  - repeat constructor; lia.
  - intros s k H. unfold case_V in H. destruct (String.eqb_spec s "p") as [->|]; [injection H as <-; reflexivity|]. destruct (String.eqb s "x"); discriminate.
  - intros s dims f H. unfold case_V in H. destruct (String.eqb_spec s "p") as [->|]; [discriminate|]. destruct (String.eqb_spec s "x") as [->|]; [|discriminate]. injection H as <- <-.
    split; [intros [Q|[]]; discriminate|]. split; [discriminate|]. split; [discriminate|]. exists []. split; [reflexivity|right; split; reflexivity].
  - intros s f H. unfold case_V in H. destruct (String.eqb s "p"); [discriminate|]. destruct (String.eqb s "x"); discriminate.
Qed.
Lemma case_grid : grid (map snd [("p", 3%Z)]) = [[1%Z]; [2%Z]; [3%Z]].
Proof. reflexivity. Qed.
Lemma case_suitable x : In x case_xs \/ In x case_zs -> suitable case_fn [("p", 3%Z)] case_V x.
Proof.
  intros H. split; [cbn [length]; lia|]. split.
  - intros _. cbn in H. destruct H as [[<-|[]]|[<-|[<-|[<-|[]]]]]; reflexivity.
  - intros t T. rewrite case_grid in T. unfold value_at. cbn in H.
    destruct H as [[<-|[]]|[<-|[<-|[<-|[]]]]]; cbn [FlattenSpec.meaning at1 case_V String.eqb Ascii.eqb Bool.eqb all map to_int]; try discriminate.
    destruct T as [<-|[<-|[<-|[]]]]; cbn [nth]; rewrite Int_part_IZR; discriminate.
Qed.
Lemma case_ints : map Int_part [1; 2; 3] = [1%Z; 2%Z; 3%Z].
Proof. exact (SubexprMain.Int_IZR [1%Z; 2%Z; 3%Z]). Qed.
Lemma case_frame : frame_for case_fn [("p", 3%Z)] "a" (at1 "a" "p") (covariates case_data) case_xs case_zs case_base.
Proof.
  pose proof case_ints as CI. cbn [map] in CI. injection CI as I1 I2 I3. constructor.
  - exact case_base_proper.
  - reflexivity.
  - reflexivity.
  - intros c x x' H F. destruct c as [|[|c]]; try discriminate. cbn in H. injection H as <-. cbn in F. injection F as <-.
    exists (vector R [1; 2; 4]). split; [|intros [|[|[|r]]] Hr; [reflexivity|reflexivity|reflexivity|rewrite case_grid in Hr; cbn [length] in Hr; lia]].
    lazy -[Int_part IZR]. rewrite I1, I2, I3. reflexivity.
  - intros j z z' H F. destruct j as [|[|[|[|j]]]]; try discriminate; cbn in H; injection H as <-; cbn in F; injection F as <-.
    + exists (vector R [1; 0; 0]). split; [lazy -[Int_part IZR]; rewrite I1, I2, I3; reflexivity|]. intros [|[|[|r]]] Hr; [| | |rewrite case_grid in Hr; cbn [length] in Hr; lia]; cbn; unfold SplitSpec.entry; cbn; f_equal; lra.
    + exists (vector R [0; 1; 0]). split; [lazy -[Int_part IZR]; rewrite I1, I2, I3; reflexivity|]. intros [|[|[|r]]] Hr; [| | |rewrite case_grid in Hr; cbn [length] in Hr; lia]; cbn; unfold SplitSpec.entry; cbn; f_equal; lra.
    + exists (vector R [0; 0; 1]). split; [lazy -[Int_part IZR]; rewrite I1, I2, I3; reflexivity|]. intros [|[|[|r]]] Hr; [| | |rewrite case_grid in Hr; cbn [length] in Hr; lia]; cbn; unfold SplitSpec.entry; cbn; f_equal; lra.
Qed.

(** A search that changes the data: a[p, k] with k in the data, so that k1 becomes a factor
    with the levels k. *)
Definition at2_ (a i j : string) : rexpr := Call [Name "["; Name a; Name i; Name j].
Definition two_data : data_list :=
  [("p1", VFac [Some 1%Z; Some 2%Z] ["A"; "B"]); ("k1", VChr ["v"; "u"]); ("k", VChr ["u"; "v"])].
Definition two_subform : rexpr := Call [Name "~"; at2_ "a" "p" "k"; Name "p"].
Lemma two_updated : exists d idx, find_indices_subform "a" two_subform (at2_ "a" "p1" "k1") (columns two_data) = Ok (d, idx) /\
  forall data', with_columns two_data d data' <->
    data' = [("p1", VFac [Some 1%Z; Some 2%Z] ["A"; "B"]); ("k1", VFac [Some 2%Z; Some 1%Z] ["u"; "v"]); ("k", VChr ["u"; "v"])].
Proof.
  eexists _, _. split; [lazy; reflexivity|]. intros data'. split.
  - intros [E F]. destruct data' as [|[s1 v1] [|[s2 v2] [|[s3 v3] [|? ?]]]]; try discriminate E. cbn [columns map fst snd] in E.
    inversion F as [|? ? ? ? D1 F1]; subst. inversion F1 as [|? ? ? ? D2 F2]; subst. inversion F2 as [|? ? ? ? D3 F3]; subst. cbn [snd] in *.
    destruct v1, v2, v3; cbn [column_of] in E; try discriminate E. injection E; intros; subst. reflexivity.
  - intros ->. split; [reflexivity|]. constructor; [now left|]. constructor; [right; eexists _, _; reflexivity|]. constructor; [now left|constructor].
Qed.
