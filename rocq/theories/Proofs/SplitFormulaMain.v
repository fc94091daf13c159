(** Proof of C73. *)
From Coq Require Import String List Reals Bool Lia Arith.
From Verif Require Import Model.Base Model.Subexpr Model.SplitFormula Spec.SplitFormulaSpec Proofs.SubexprLemmas.
Import ListNotations.
Local Open Scope string_scope.
Local Open Scope R_scope.
Notation length := List.length.

Local Ltac bool_cases := repeat match goal with
  | |- context [String.eqb ?f ?s] => destruct (String.eqb_spec f s)
  | H : context [String.eqb ?f ?s] |- _ => destruct (String.eqb_spec f s)
  end; subst.

(** ** Reading *)
Definition is_label (x : rexpr) : bool := negb (is_constant x || is_offset x).

Lemma constant_eq st p c : c = 1 \/ c = 0 ->
  constant st p c = Ok (mkTerms (t_lhs st) (t_labels st) (t_offsets st) (if p then hd true (setting (Const c)) else negb (hd true (setting (Const c))))).
Proof.
  intros H. unfold constant, setting. destruct (Req_EM_T c 1) as [E|E]; cbn [hd].
  - destruct p; reflexivity.
  - destruct H as [H|H]; [contradiction|]. destruct (Req_EM_T c 0) as [E'|E']; [|contradiction]. destruct p; reflexivity.
Qed.

Lemma last_app {A} (l m : list A) d : last (l ++ m) d = last m (last l d).
Proof.
  revert d. induction l as [|x l IH]; intros d; [reflexivity|]. destruct l as [|y l].
  - cbn [app last]. destruct m; [reflexivity|]. clear. revert a. induction m as [|b m IH]; intros a; [reflexivity|]. cbn [last] in *. apply IH.
  - change (last ((x :: y :: l) ++ m) d) with (last ((y :: l) ++ m) d). change (last (x :: y :: l) d) with (last (y :: l) d). apply IH.
Qed.

Lemma read_eq x : forall st, subtractions x -> (forall y, In y (summands x) -> is_constant y = true -> unit y) ->
  read_terms st x = Ok (mkTerms (t_lhs st) (t_labels st ++ filter is_label (summands x)) (t_offsets st ++ offsets x) (last (settings x) (t_intercept st))).
Proof.
  induction x as [c|s|xs IH] using rexpr_ind'; intros st S C.
  - cbn [read_terms]. pose proof (C (Const c) (or_introl eq_refl) eq_refl) as U. cbn [unit] in U. rewrite (constant_eq _ _ _ U).
    cbn. rewrite !app_nil_r. unfold setting. destruct (Req_EM_T c 1); reflexivity.
  - cbn. rewrite app_nil_r. reflexivity.
  - assert (G : forall y, Call xs = y -> summands y = [y] -> is_constant y = false -> is_offset y = false -> settings y = [] ->
      Ok (mkTerms (t_lhs st) (t_labels st ++ [y]) (t_offsets st) (t_intercept st)) =
      Ok (mkTerms (t_lhs st) (t_labels st ++ filter is_label (summands y)) (t_offsets st ++ offsets y) (last (settings y) (t_intercept st)))).
    { intros y _ E1 E2 E3 E4. unfold offsets. rewrite E1, E4. cbn [filter last]. rewrite E3. unfold is_label. rewrite E2, E3. cbn. rewrite app_nil_r. reflexivity. }
    destruct xs as [|[c|f|fs] xs]; try (cbn [read_terms]; apply G; reflexivity).
    destruct xs as [|a xs]; [cbn [read_terms]; apply G; reflexivity|].
    inversion IH as [|? ? _ IH1]; subst. inversion IH1 as [|? ? IHa IH2]; subst.
    destruct xs as [|b xs].
    + cbn [read_terms]. cbn [subtractions summands settings] in *. unfold offsets in *. cbn [summands]. 
      destruct (String.eqb_spec f "(") as [->|N1].
      * change (String.eqb "(" "-") with false in *. cbn iota in *. apply (IHa st S C).
      * destruct (String.eqb_spec f "-") as [->|N2].
        -- destruct a as [c| |]; try destruct S. all: cbn [unit] in *; try contradiction.
           all: rewrite constant_eq by tauto; cbn [filter]; rewrite !app_nil_r; f_equal; f_equal.
           all: unfold setting; destruct (Req_EM_T _ 1); reflexivity.
        -- destruct (String.eqb_spec f "offset") as [->|N3].
           ++ cbn [filter is_label is_constant is_offset call1 some negb orb String.eqb]. cbn. rewrite app_nil_r. reflexivity.
           ++ assert (O : is_offset (Call [Name f; a]) = false). { unfold is_offset, call1. destruct (String.eqb_spec f "offset"); [contradiction|reflexivity]. }
              cbn [filter]. unfold is_label. cbn [is_constant]. rewrite O. cbn. rewrite app_nil_r. reflexivity.
    + inversion IH2 as [|? ? IHb IH3]; subst. destruct xs as [|z xs].
      * cbn [read_terms]. cbn [subtractions summands settings] in *. unfold offsets in *. cbn [summands].
        destruct (String.eqb_spec f "+") as [->|N1].
        -- destruct S as [Sa Sb]. rewrite (IHa st Sa) by (intros y Iy; apply C, in_or_app; now left). cbn [bind].
           rewrite (IHb _ Sb) by (intros y Iy; apply C, in_or_app; now right). cbn [t_lhs t_labels t_offsets t_intercept].
           rewrite !filter_app, last_app, <- !app_assoc. reflexivity.
        -- destruct (String.eqb_spec f "-") as [->|N2].
           ++ destruct S as [Sa Sb]. rewrite (IHa st Sa C). cbn [bind]. destruct b as [c| |]; cbn [unit] in Sb; try contradiction.
              rewrite constant_eq by tauto. cbn [t_lhs t_labels t_offsets t_intercept]. f_equal. f_equal. rewrite last_app.
              unfold setting. destruct (Req_EM_T c 1); reflexivity.
           ++ cbn [filter]. unfold is_label, is_offset. cbn. rewrite app_nil_r. reflexivity.
      * cbn [read_terms]. apply G; reflexivity.
Qed.

(** ** Text *)
Lemma item_deparse x : item x = true -> deparse x = [TItem x].
Proof.
  unfold item. destruct x as [c|s|xs]; [reflexivity|reflexivity|]. destruct xs as [|[c|f|fs] [|a [|b [|z xs]]]]; try reflexivity.
  cbn [call2 deparse]. destruct (String.eqb f "+"); [discriminate|]. destruct (String.eqb f "-"); [discriminate|]. destruct (String.eqb f "|"); [discriminate|reflexivity].
Qed.
Lemma sum_deparse x : plain_sum x = true -> exists y ts, deparse x = TItem y :: ts /\ forall left rest, parse_rest left y (ts ++ rest) = parse_rest left x rest.
Proof.
  induction x as [c|s|xs IH] using rexpr_ind'; intros P.
  - exists (Const c), []. split; reflexivity.
  - exists (Name s), []. split; reflexivity.
  - destruct xs as [|[c|f|fs] [|a [|b [|z xs]]]]; try (eexists; exists []; split; reflexivity).
    inversion IH as [|? ? _ IH1]; subst. inversion IH1 as [|? ? IHa _]; subst. cbn [plain_sum] in P.
    destruct (String.eqb_spec f "+") as [->|N1]; [|destruct (String.eqb_spec f "-") as [->|N2]]; cbn [orb] in P.
    + apply andb_true_iff in P. destruct P as [Pa Pb]. destruct (IHa Pa) as (y & ts & E & F). exists y, (ts ++ [TPlus; TItem b])%list.
      cbn [deparse]. cbn [String.eqb Ascii.eqb Bool.eqb]. rewrite E, (item_deparse _ Pb). split; [reflexivity|]. intros left rest. rewrite <- app_assoc, F. reflexivity.
    + apply andb_true_iff in P. destruct P as [Pa Pb]. destruct (IHa Pa) as (y & ts & E & F). exists y, (ts ++ [TMinus; TItem b])%list.
      cbn [deparse]. cbn [String.eqb Ascii.eqb Bool.eqb]. rewrite E, (item_deparse _ Pb). split; [reflexivity|]. intros left rest. rewrite <- app_assoc, F. reflexivity.
    + rewrite (item_deparse _ P). eexists; exists []; split; reflexivity.
Qed.
Lemma parsed_deparse x : parsed x = true -> exists y ts, deparse x = TItem y :: ts /\
  forall rest, exists left current, closed left current = x /\ parse_rest None y (ts ++ rest) = parse_rest left current rest.
Proof.
  induction x as [c|s|xs IH] using rexpr_ind'; intros P.
  - exists (Const c), []. split; [reflexivity|]. intros rest. exists None, (Const c). split; reflexivity.
  - exists (Name s), []. split; [reflexivity|]. intros rest. exists None, (Name s). split; reflexivity.
  - assert (D : plain_sum (Call xs) = true -> exists y ts, deparse (Call xs) = TItem y :: ts /\
      forall rest, exists left current, closed left current = Call xs /\ parse_rest None y (ts ++ rest) = parse_rest left current rest).
    { intros Q. destruct (sum_deparse _ Q) as (y & ts & E & F). exists y, ts. split; [exact E|]. intros rest. exists None, (Call xs). split; [reflexivity|apply F]. }
    destruct xs as [|[c|f|fs] [|a [|b [|z xs]]]]; try (apply D; reflexivity).
    inversion IH as [|? ? _ IH1]; subst. inversion IH1 as [|? ? IHa _]; subst. cbn [parsed] in P.
    destruct (String.eqb_spec f "|") as [->|N1]; [|apply D; exact P].
    apply andb_true_iff in P. destruct P as [Pa Pb]. destruct (IHa Pa) as (y & ts & E & F). destruct (sum_deparse b Pb) as (z & us & Eb & Fb).
    exists y, (ts ++ TBar :: TItem z :: us)%list. cbn [deparse]. cbn [String.eqb Ascii.eqb Bool.eqb]. rewrite E, Eb. split; [reflexivity|].
    intros rest. rewrite <- app_assoc. destruct (F (TBar :: TItem z :: us ++ rest)%list) as (left & current & C1 & C2).
    exists (Some a), b. split; [reflexivity|]. cbn [app]. rewrite C2. cbn [parse_rest]. rewrite C1. apply Fb.
Qed.
Lemma parse_deparse x : parsed x = true -> parse (deparse x) = Ok x.
Proof.
  intros P. destruct (parsed_deparse x P) as (y & ts & E & F). rewrite E. cbn [parse]. destruct (F []) as (l & c & C1 & C2).
  rewrite app_nil_r in C2. rewrite C2. cbn [parse_rest]. now rewrite C1.
Qed.

(** Several labels. *)
Definition sum_of (x : rexpr) (l : list rexpr) : rexpr := fold_left (fun a y => Call [Name "+"; a; y]) l x.
Lemma parse_sum l : forall cur rest, parse_rest None cur ((flat_map (fun y => [TPlus; TItem y]) l) ++ rest) = parse_rest None (sum_of cur l) rest.
Proof. induction l as [|y l IH]; intros cur rest; [reflexivity|]. cbn [flat_map app parse_rest]. apply IH. Qed.
Lemma paste_items x l : paste (map (fun y => [TItem y]) (x :: l)) = TItem x :: flat_map (fun y => [TPlus; TItem y]) l.
Proof.
  revert x. induction l as [|y l IH]; intros x; [reflexivity|]. change (paste (map (fun y => [TItem y]) (x :: y :: l))) with ([TItem x] ++ TPlus :: paste (map (fun y => [TItem y]) (y :: l)))%list.
  rewrite IH. reflexivity.
Qed.
Lemma parse_items x l ts : parse (paste (map (fun y => [TItem y]) (x :: l)) ++ ts) = parse_rest None (sum_of x l) ts.
Proof. rewrite paste_items. cbn [app parse]. apply parse_sum. Qed.

(** Items and operators in turn. *)
Fixpoint alternate (ts : list token) : bool :=
  match ts with
  | [] => true
  | TItem _ :: _ => false
  | _ :: TItem _ :: ts' => alternate ts'
  | _ => false
  end.
Definition starts (ts : list token) : bool := match ts with TItem _ :: ts' => alternate ts' | _ => false end.
Definition bar_in (ts : list token) : bool := existsb (fun t => match t with TBar => true | _ => false end) ts.
Lemma parse_rest_bar n : forall ts left cur, (length ts <= n)%nat -> alternate ts = true ->
  exists r, parse_rest left cur ts = Ok r /\ (left <> None \/ bar_in ts = true -> is_bar r = true).
Proof.
  induction n as [|n IH]; intros ts left cur L A.
  - destruct ts; [|cbn in L; lia]. exists (closed left cur). split; [reflexivity|]. intros [H|H]; [|discriminate]. destruct left; [reflexivity|contradiction].
  - destruct ts as [|t ts]; [exists (closed left cur); split; [reflexivity|]; intros [H|H]; [|discriminate]; destruct left; [reflexivity|contradiction]|].
    destruct t; cbn [alternate] in A; try discriminate; destruct ts as [|[x| | |] ts]; try discriminate; cbn [length] in L; cbn [parse_rest].
    + destruct (IH ts left (Call [Name "+"; cur; x]) ltac:(lia) A) as (r & E & B). exists r. split; [exact E|]. intros H. apply B. exact H.
    + destruct (IH ts left (Call [Name "-"; cur; x]) ltac:(lia) A) as (r & E & B). exists r. split; [exact E|]. intros H. apply B. exact H.
    + destruct (IH ts (Some (closed left cur)) x ltac:(lia) A) as (r & E & B). exists r. split; [exact E|]. intros _. apply B. left. discriminate.
Qed.
Lemma alternate_app n : forall a b, (length a <= n)%nat -> alternate a = true -> alternate b = true -> alternate (a ++ b) = true.
Proof.
  induction n as [|n IH]; intros a b L A B; (destruct a as [|t a]; [exact B|]); [cbn in L; lia|].
  destruct t; cbn [alternate] in A; try discriminate; (destruct a as [|[x| | |] a]; try discriminate); cbn [app alternate]; cbn [length] in L; apply IH; trivial; lia.
Qed.
Lemma starts_app a op b : (op = TPlus \/ op = TMinus \/ op = TBar) -> starts a = true -> starts b = true -> starts (a ++ op :: b) = true.
Proof.
  intros O A B. destruct a as [|[x| | |] a]; try discriminate. cbn [starts app] in *. apply (alternate_app (length a)); [lia|exact A|].
  destruct b as [|[y| | |] b]; try discriminate. destruct O as [->|[->| ->]]; exact B.
Qed.
Lemma sum_starts x : plain_sum x = true -> starts (deparse x) = true.
Proof.
  induction x as [c|s|xs IH] using rexpr_ind'; intros P; [reflexivity|reflexivity|].
  destruct xs as [|[c|f|fs] [|a [|b [|z xs]]]]; try reflexivity.
  inversion IH as [|? ? _ IH1]; subst. inversion IH1 as [|? ? IHa _]; subst. cbn [plain_sum] in P.
  destruct (String.eqb_spec f "+") as [->|N1]; [|destruct (String.eqb_spec f "-") as [->|N2]]; cbn [orb] in P.
  - apply andb_true_iff in P. destruct P as [Pa Pb]. cbn [deparse]. cbn [String.eqb Ascii.eqb Bool.eqb]. apply starts_app; [tauto|now apply IHa|]. rewrite (item_deparse _ Pb). reflexivity.
  - apply andb_true_iff in P. destruct P as [Pa Pb]. cbn [deparse]. cbn [String.eqb Ascii.eqb Bool.eqb]. apply starts_app; [tauto|now apply IHa|]. rewrite (item_deparse _ Pb). reflexivity.
  - rewrite (item_deparse _ P). reflexivity.
Qed.
Lemma parsed_starts x : parsed x = true -> starts (deparse x) = true.
Proof.
  induction x as [c|s|xs IH] using rexpr_ind'; intros P; [reflexivity|reflexivity|].
  destruct xs as [|[c|f|fs] [|a [|b [|z xs]]]]; try reflexivity.
  inversion IH as [|? ? _ IH1]; subst. inversion IH1 as [|? ? IHa _]; subst. cbn [parsed] in P.
  destruct (String.eqb_spec f "|") as [->|N1]; [|apply sum_starts; exact P].
  apply andb_true_iff in P. destruct P as [Pa Pb]. cbn [deparse]. cbn [String.eqb Ascii.eqb Bool.eqb]. apply starts_app; [tauto|now apply IHa|]. now apply sum_starts.
Qed.
Lemma paste_starts l : l <> [] -> List.Forall (fun x => parsed x = true) l -> starts (paste (map deparse l)) = true.
Proof.
  induction l as [|x l IH]; intros N F; [contradiction|]. inversion F as [|? ? Fx Fl]; subst. destruct l as [|y l]; [now apply parsed_starts|].
  change (paste (map deparse (x :: y :: l))) with (deparse x ++ TPlus :: paste (map deparse (y :: l)))%list.
  apply starts_app; [tauto|now apply parsed_starts|]. apply IH; [discriminate|exact Fl].
Qed.
Lemma bar_in_app a b : bar_in (a ++ b) = bar_in a || bar_in b. Proof. apply existsb_app. Qed.
Lemma bar_deparse x : is_bar x = true -> bar_in (deparse x) = true.
Proof.
  unfold is_bar, call2. destruct x as [c|s|[|[c|f|fs] [|a [|b [|z xs]]]]]; cbn [some]; try discriminate. destruct (String.eqb_spec f "|") as [->|N]; [|discriminate]. intros _.
  cbn [deparse]. cbn [String.eqb Ascii.eqb Bool.eqb]. rewrite bar_in_app. cbn. now rewrite orb_true_r.
Qed.
Lemma paste_bar l : existsb is_bar l = true -> bar_in (paste (map deparse l)) = true.
Proof.
  induction l as [|x l IH]; intros H; [discriminate|]. cbn [existsb] in H. destruct l as [|y l].
  - cbn [existsb] in H. rewrite orb_false_r in H. now apply bar_deparse.
  - change (paste (map deparse (x :: y :: l))) with (deparse x ++ TPlus :: paste (map deparse (y :: l)))%list. rewrite bar_in_app.
    apply orb_true_iff in H. destruct H as [H|H]; [now rewrite (bar_deparse x H)|]. apply orb_true_iff. right. exact (IH H).
Qed.
Lemma parse_bars l : l <> [] -> List.Forall (fun x => parsed x = true) l -> existsb is_bar l = true -> exists r, parse (paste (map deparse l)) = Ok r /\ is_bar r = true.
Proof.
  intros N F B. pose proof (paste_starts l N F) as S. pose proof (paste_bar l B) as B'. destruct (paste (map deparse l)) as [|[x| | |] ts]; try discriminate.
  cbn [starts] in S. destruct (parse_rest_bar (length ts) ts None x (le_n _) S) as (r & E & Br). exists r. split; [exact E|]. apply Br. right. exact B'.
Qed.

(** ** Summands *)
Definition simple (x : rexpr) : bool := negb (some (call2 "+" x) || some (call2 "-" x) || some (call1 "-" x) || some (call1 "(" x)).
Lemma summands_simple x : List.Forall (fun y => simple y = true) (summands x).
Proof.
  induction x as [c|s|xs IH] using rexpr_ind'; [repeat constructor|repeat constructor|].
  destruct xs as [|[c|f|fs] [|a [|b [|z xs]]]]; try (repeat constructor; fail).
  - inversion IH as [|? ? _ IH1]; subst. inversion IH1 as [|? ? IHa _]; subst. cbn [summands]. destruct (String.eqb f "-") eqn:E1; [constructor|].
    destruct (String.eqb f "(") eqn:E2; [exact IHa|]. constructor; [|constructor]. unfold simple. cbn [call1 call2]. now rewrite E1, E2.
  - inversion IH as [|? ? _ IH1]; subst. inversion IH1 as [|? ? IHa IH2]; subst. inversion IH2 as [|? ? IHb _]; subst. cbn [summands].
    destruct (String.eqb f "+") eqn:E1; [apply Forall_app; tauto|]. destruct (String.eqb f "-") eqn:E2; [exact IHa|].
    constructor; [|constructor]. unfold simple. cbn [call1 call2]. now rewrite E1, E2.
Qed.
Lemma simple_summands x : simple x = true -> summands x = [x].
Proof.
  unfold simple. destruct x as [c|s|[|[c|f|fs] [|a [|b [|z xs]]]]]; try reflexivity; cbn [call1 call2 summands];
    repeat match goal with |- context [String.eqb f ?s] => destruct (String.eqb f s) end; cbn [some orb negb]; try discriminate; reflexivity.
Qed.
Lemma simple_settings x : simple x = true -> is_constant x = false -> settings x = [].
Proof.
  unfold simple. destruct x as [c|s|[|[c|f|fs] [|a [|b [|z xs]]]]]; try reflexivity; cbn [call1 call2 settings is_constant];
    repeat match goal with |- context [String.eqb f ?s] => destruct (String.eqb f s) end; cbn [some orb negb]; try discriminate; reflexivity.
Qed.
Lemma simple_item x : simple x = true -> is_bar x = false -> item x = true.
Proof.
  unfold simple, is_bar, item. intros S ->. destruct (call2 "+" x); [discriminate|]. destruct (call2 "-" x); [discriminate|reflexivity].
Qed.
Lemma simple_subtractions x : simple x = true -> subtractions x.
Proof.
  unfold simple. destruct x as [c|s|[|[c|f|fs] [|a [|b [|z xs]]]]]; try (intros; exact I); cbn [call1 call2 subtractions];
    repeat match goal with |- context [String.eqb f ?s] => destruct (String.eqb f s) end; cbn [some orb negb]; try discriminate; intros; exact I.
Qed.

(** Labels: simple, and neither constants nor offsets. *)
Definition outside (x : rexpr) : bool := negb (is_constant x || is_offset x || is_substitution x).
Lemma is_sub_eq x : is_sub x = call1 "Sub" x. Proof. reflexivity. Qed.
Lemma outside_eq l : filter (fun x => match is_sub x with Some _ => false | None => true end) (filter is_label l) = filter outside l.
Proof.
  induction l as [|x l IH]; [reflexivity|]. cbn [filter]. unfold outside at 1, is_label at 1, is_substitution. destruct (is_constant x || is_offset x) eqn:E; cbn [negb orb]; [exact IH|].
  cbn [filter]. rewrite is_sub_eq. destruct (call1 "Sub" x); cbn [some negb]; rewrite IH; reflexivity.
Qed.
Lemma sub_label x e : call1 "Sub" x = Some e -> is_label x = true.
Proof.
  unfold is_label, is_constant, is_offset. destruct x as [c|s|[|[c|f|fs] [|a [|b [|z xs]]]]]; cbn [call1]; try discriminate.
  destruct (String.eqb_spec f "Sub") as [->|]; [reflexivity|discriminate].
Qed.
Lemma subexprs_eq l : flat_map (fun x => match is_sub x with Some e => [e] | None => [] end) (filter is_label l) = flat_map (fun x => match call1 "Sub" x with Some e => [e] | None => [] end) l.
Proof.
  induction l as [|x l IH]; [reflexivity|]. cbn [filter flat_map]. destruct (is_label x) eqn:E; cbn [flat_map]; rewrite IH; [reflexivity|].
  destruct (call1 "Sub" x) as [e|] eqn:S; [|reflexivity]. rewrite (sub_label _ _ S) in E. discriminate.
Qed.
Lemma count_eq l : length (filter is_label l) = (length (flat_map (fun x => match call1 "Sub" x with Some e => [e] | None => [] end) l) + length (filter outside l))%nat.
Proof.
  induction l as [|x l IH]; [reflexivity|]. cbn [filter flat_map]. rewrite app_length.
  destruct (call1 "Sub" x) as [e|] eqn:S.
  - rewrite (sub_label _ _ S). unfold outside at 1, is_substitution. rewrite S. cbn [some]. rewrite orb_true_r. cbn [negb length]. rewrite IH. lia.
  - unfold outside at 1, is_substitution. rewrite S. cbn [some]. rewrite orb_false_r. fold (is_label x). destruct (is_label x); cbn [length]; rewrite IH; lia.
Qed.
Lemma interaction_eq x : within_interaction x = in_interaction x.
Proof. reflexivity. Qed.

(** ** The formula without Sub() *)
Lemma forallb_filter_id' {A} (f : A -> bool) l : (forall y, In y l -> f y = true) -> filter f l = l.
Proof. induction l as [|x l IH]; intros H; [reflexivity|]. cbn [filter]. rewrite (H x (or_introl eq_refl)), IH; [reflexivity|]. intros y Iy. apply H. now right. Qed.
Lemma filter_none {A} (f : A -> bool) l : (forall y, In y l -> f y = false) -> filter f l = [].
Proof. induction l as [|x l IH]; intros H; [reflexivity|]. cbn [filter]. rewrite (H x (or_introl eq_refl)). apply IH. intros y Iy. apply H. now right. Qed.
Definition lone (x : rexpr) : Prop := simple x = true /\ outside x = true.
Lemma sum_of_summands l : forall x, summands (sum_of x l) = (summands x ++ flat_map summands l)%list.
Proof.
  induction l as [|y l IH]; intros x; [cbn; now rewrite app_nil_r|]. cbn [sum_of fold_left flat_map]. fold (sum_of (Call [Name "+"; x; y]) l). rewrite IH. cbn [summands].
  cbn [String.eqb Ascii.eqb Bool.eqb]. now rewrite <- app_assoc.
Qed.
Lemma sum_of_settings l : forall x, settings (sum_of x l) = (settings x ++ flat_map settings l)%list.
Proof.
  induction l as [|y l IH]; intros x; [cbn; now rewrite app_nil_r|]. cbn [sum_of fold_left flat_map]. fold (sum_of (Call [Name "+"; x; y]) l). rewrite IH. cbn [settings].
  cbn [String.eqb Ascii.eqb Bool.eqb]. now rewrite <- app_assoc.
Qed.
Lemma sum_of_subtractions l : forall x, subtractions x -> List.Forall subtractions l -> subtractions (sum_of x l).
Proof.
  induction l as [|y l IH]; intros x S F; [exact S|]. inversion F; subst. cbn [sum_of fold_left]. apply IH; [|assumption]. cbn [subtractions].
  cbn [String.eqb Ascii.eqb Bool.eqb]. tauto.
Qed.
Lemma flat_map_simple l : List.Forall (fun y => simple y = true) l -> flat_map summands l = l.
Proof. induction 1 as [|x l S _ IH]; [reflexivity|]. cbn [flat_map]. rewrite (simple_summands x S), IH. reflexivity. Qed.

(** Read again: labels x and l. *)
Lemma read_sum lhs x l : List.Forall lone (x :: l) -> read_terms (mkTerms lhs [] [] true) (sum_of x l) = Ok (mkTerms lhs (x :: l) [] true).
Proof.
  intros F. assert (FS : List.Forall (fun y => simple y = true) (x :: l)) by (eapply Forall_impl; [|exact F]; intros a H; apply H).
  assert (FO : forall y, In y (x :: l) -> outside y = true) by (rewrite Forall_forall in F; intros y Iy; apply (F y Iy)).
  assert (ES : summands (sum_of x l) = x :: l). { rewrite sum_of_summands. change (flat_map summands (x :: l) = x :: l). now apply flat_map_simple. }
  rewrite read_eq; cbn [t_lhs t_labels t_offsets t_intercept app].
  - unfold offsets. rewrite ES. f_equal. f_equal.
    + apply forallb_filter_id'. intros y Iy. specialize (FO y Iy). unfold outside in FO. unfold is_label. destruct (is_constant y || is_offset y); [discriminate|reflexivity].
    + apply filter_none. intros y Iy. specialize (FO y Iy). unfold outside in FO. destruct (is_offset y); [|reflexivity]. rewrite orb_true_r in FO. discriminate.
    + rewrite sum_of_settings. replace (settings x ++ flat_map settings l)%list with (@nil bool); [reflexivity|]. symmetry. change (flat_map settings (x :: l) = []).
      clear - F. induction F as [|y m [S O] _ IH]; [reflexivity|]. cbn [flat_map]. rewrite IH, simple_settings; [reflexivity|exact S|]. unfold outside in O. destruct (is_constant y); [discriminate|reflexivity].
  - apply sum_of_subtractions; [apply simple_subtractions; inversion FS; assumption|]. inversion FS; subst. eapply Forall_impl; [|eassumption]. intros a. apply simple_subtractions.
  - rewrite ES. intros y Iy C. specialize (FO y Iy). unfold outside in FO. rewrite C in FO. discriminate.
Qed.

(** The end of fixFormulaObject, for labels x and l. *)
Definition shown (x : rexpr) : rexpr := if has_bar x then Call [Name "("; x] else x.
Lemma bar_has_bar x : is_bar x = true -> has_bar x = true.
Proof.
  unfold is_bar, call2. destruct x as [c|s|[|[c|f|fs] [|a [|b [|z xs]]]]]; cbn [some]; try discriminate. destruct (String.eqb_spec f "|") as [->|N]; [reflexivity|discriminate].
Qed.
Lemma shown_text x : lone x -> (if has_bar x then [TItem (Call [Name "("; x])] else deparse x) = [TItem (shown x)].
Proof.
  intros [S O]. unfold shown. destruct (has_bar x) eqn:B; [reflexivity|]. apply item_deparse, simple_item; [exact S|].
  destruct (is_bar x) eqn:E; [|reflexivity]. rewrite (bar_has_bar x E) in B. discriminate.
Qed.
Lemma shown_summands x : lone x -> summands (shown x) = [x] /\ settings (shown x) = [].
Proof.
  intros [S O]. unfold shown. assert (C : is_constant x = false) by (unfold outside in O; destruct (is_constant x); [discriminate|reflexivity]).
  destruct (has_bar x); cbn [summands settings]; cbn [String.eqb Ascii.eqb Bool.eqb]; split; auto using simple_summands, simple_settings.
Qed.
Lemma fix_eq lhs x l : List.Forall lone (x :: l) ->
  fixFormulaObject (mkTerms lhs (x :: l) [] false) = Ok (Call [Name "~"; lhs; Call [Name "-"; sum_of (shown x) (map shown l); Const 1]]).
Proof.
  intros F. unfold fixFormulaObject. cbn [t_lhs t_labels t_offsets t_intercept map]. rewrite app_nil_r. cbn iota.
  assert (E : (if has_bar x then [TItem (Call [Name "("; x])] else deparse x) :: map (fun l0 => if has_bar l0 then [TItem (Call [Name "("; l0])] else deparse l0) l =
    map (fun y => [TItem y]) (shown x :: map shown l)).
  { change (map (fun l0 => if has_bar l0 then [TItem (Call [Name "("; l0])] else deparse l0) (x :: l) = map (fun y => [TItem y]) (map shown (x :: l))).
    rewrite map_map. apply map_ext_in. intros y Iy. apply shown_text. rewrite Forall_forall in F. now apply F. }
  rewrite E, parse_items. reflexivity.
Qed.
Lemma fix_summands x l : List.Forall lone (x :: l) -> let rhs := Call [Name "-"; sum_of (shown x) (map shown l); Const 1] in summands rhs = x :: l /\ intercept rhs = false.
Proof.
  intros F rhs. subst rhs. unfold intercept. cbn [summands settings]. cbn [String.eqb Ascii.eqb Bool.eqb]. rewrite sum_of_summands, sum_of_settings.
  change (summands (shown x) ++ flat_map summands (map shown l))%list with (flat_map summands (map shown (x :: l))).
  change (settings (shown x) ++ flat_map settings (map shown l))%list with (flat_map settings (map shown (x :: l))).
  split.
  - induction F as [|y m H _ IH]; [reflexivity|]. cbn [map flat_map]. rewrite IH, (proj1 (shown_summands y H)). reflexivity.
  - rewrite last_app. unfold setting. destruct (Req_EM_T 1 1) as [_|N]; [reflexivity|contradiction (N eq_refl)].
Qed.

(** All cases. *)
Lemma terms_formula lhs rhs : terms_of (Call [Name "~"; lhs; rhs]) = read_terms (mkTerms lhs [] [] true) rhs.
Proof. reflexivity. Qed.
Lemma lone_outside rhs : List.Forall lone (terms_outside rhs).
Proof.
  unfold terms_outside. fold outside. apply Forall_forall. intros x I. apply filter_In in I. destruct I as [I O]. split; [|exact O].
  pose proof (summands_simple rhs) as S. rewrite Forall_forall in S. now apply S.
Qed.
Lemma lone_facts l : List.Forall lone l -> filter (fun x => negb (is_constant x || is_offset x || is_substitution x)) l = l /\ filter is_offset l = [].
Proof.
  intros F. rewrite Forall_forall in F. split.
  - apply forallb_filter_id'. intros y Iy. apply (F y Iy).
  - apply filter_none. intros y Iy. destruct (F y Iy) as [_ O]. unfold outside in O. destruct (is_offset y); [|reflexivity]. rewrite orb_true_r in O. discriminate.
Qed.

Lemma split_start lhs rhs : ordinary rhs -> substituted rhs <> [] ->
  split_formula (Call [Name "~"; lhs; rhs]) =
  match terms_outside rhs with
  | [] => Ok (Call [Name "~"; lhs; Const 0], substituted rhs)
  | _ =>
      tf_no_sub <- (r <- parse (paste (map deparse (terms_outside rhs))) ;; read_terms (mkTerms lhs [] [] true) r) ;;
      form_no_sub <- fixFormulaObject (mkTerms (t_lhs tf_no_sub) (t_labels tf_no_sub) (t_offsets tf_no_sub) false) ;;
      Ok (form_no_sub, substituted rhs)
  end.
Proof.
  intros [S C I P] N. unfold split_formula. rewrite terms_formula, (read_eq rhs _ S C). cbn [bind t_lhs t_labels t_offsets t_intercept app].
  replace (existsb within_interaction (filter is_label (summands rhs))) with false.
  2:{ symmetry. apply Bool.not_true_iff_false. intros E. apply existsb_exists in E. destruct E as (x & Ix & Ex). apply filter_In in Ix. rewrite interaction_eq, (I x (proj1 Ix)) in Ex. discriminate. }
  rewrite subexprs_eq, count_eq. fold (substituted rhs). fold (terms_outside rhs). unfold drop_terms. cbn [t_lhs t_labels t_offsets t_intercept].
  rewrite outside_eq. change (filter outside (summands rhs)) with (terms_outside rhs). rewrite app_nil_r.
  destruct (substituted rhs) as [|e es] eqn:E; [contradiction|]. destruct (terms_outside rhs) as [|x l].
  - rewrite Nat.add_0_r, Nat.ltb_irrefl. reflexivity.
  - replace (Nat.ltb (length (e :: es)) (length (e :: es) + length (x :: l))) with true by (symmetry; apply Nat.ltb_lt; cbn [length]; lia). reflexivity.
Qed.

Lemma const0_facts : intercept (Const 0) = false /\ offsets (Const 0) = [] /\ terms_outside (Const 0) = [].
Proof.
  split; [|split; reflexivity]. unfold intercept. cbn [settings setting]. destruct (Req_EM_T 0 1) as [E|_]; [|reflexivity]. exfalso. apply (R1_neq_R0). now symmetry.
Qed.

Theorem C73_split_main : forall lhs rhs, ordinary rhs -> substituted rhs <> [] -> (random_outside rhs = [] \/ (length (terms_outside rhs) <= 1)%nat) ->
  exists rhs', split_formula (Call [Name "~"; lhs; rhs]) = Ok (Call [Name "~"; lhs; rhs'], substituted rhs) /\
  terms_outside rhs' = terms_outside rhs /\ intercept rhs' = false /\ offsets rhs' = [].
Proof.
  intros lhs rhs O N H. rewrite (split_start lhs rhs O N). pose proof (lone_outside rhs) as L. destruct (terms_outside rhs) as [|x l] eqn:T.
  - exists (Const 0). destruct const0_facts as (A & B & D). now rewrite A, B, D.
  - assert (P : parse (paste (map deparse (x :: l))) = Ok (sum_of x l)).
    { destruct H as [H|H].
      - assert (B : forall y, In y (x :: l) -> deparse y = [TItem y]).
        { intros y Iy. rewrite Forall_forall in L. destruct (L y Iy) as [Sy _]. apply item_deparse, simple_item; [exact Sy|].
          destruct (is_bar y) eqn:By; [|reflexivity]. assert (J : In y (random_outside rhs)) by (unfold random_outside; rewrite T; apply filter_In; tauto). rewrite H in J. destruct J. }
        rewrite (map_ext_in _ (fun y => [TItem y]) _ B). rewrite <- (app_nil_r (paste _)), parse_items. reflexivity.
      - destruct l; [|cbn [length] in H; lia]. apply parse_deparse. destruct O as [_ _ _ P]. apply P.
        assert (J : In x (terms_outside rhs)) by (rewrite T; now left). unfold terms_outside in J. apply filter_In in J. apply J. }
    rewrite P. cbn [bind]. rewrite (read_sum lhs x l L). cbn [bind t_lhs t_labels t_offsets]. rewrite (fix_eq lhs x l L). cbn [bind].
    eexists. split; [reflexivity|]. destruct (fix_summands x l L) as [ES EI]. rewrite EI. unfold terms_outside, offsets. rewrite ES.
    destruct (lone_facts (x :: l) L) as [A B]. now rewrite A, B.
Qed.

Lemma bar_lone r : is_bar r = true -> lone r.
Proof.
  unfold lone, simple, outside, is_bar, is_constant, is_offset, is_substitution, call2, call1. destruct r as [c|s|[|[c|f|fs] [|a [|b [|z xs]]]]]; cbn [some]; try discriminate.
  destruct (String.eqb_spec f "|") as [->|_]; [|discriminate]. intros _. split; reflexivity.
Qed.
Theorem C73_bars_main : forall lhs rhs, ordinary rhs -> substituted rhs <> [] -> random_outside rhs <> [] -> (2 <= length (terms_outside rhs))%nat ->
  exists rhs' r, split_formula (Call [Name "~"; lhs; rhs]) = Ok (Call [Name "~"; lhs; rhs'], substituted rhs) /\
  fixed_outside rhs' = [] /\ random_outside rhs' = [r] /\ intercept rhs' = false /\ offsets rhs' = [].
Proof.
  intros lhs rhs O N H L2. rewrite (split_start lhs rhs O N). destruct (terms_outside rhs) as [|x l] eqn:T; [cbn in L2; lia|].
  destruct (parse_bars (x :: l)) as (r & P & B).
  - discriminate.
  - apply Forall_forall. intros y Iy. destruct O as [_ _ _ P]. apply P. rewrite <- T in Iy. unfold terms_outside in Iy. apply filter_In in Iy. apply Iy.
  - unfold random_outside in H. rewrite T in H. destruct (filter is_bar (x :: l)) as [|y m] eqn:E; [contradiction|].
    apply existsb_exists. exists y. apply filter_In. rewrite E. now left.
  - rewrite P. cbn [bind]. pose proof (bar_lone r B) as Lr. assert (F : List.Forall lone [r]) by (constructor; [exact Lr|constructor]).
    change r with (sum_of r []) at 1. rewrite (read_sum lhs r [] F). cbn [bind t_lhs t_labels t_offsets]. rewrite (fix_eq lhs r [] F). cbn [bind].
    eexists. exists r. split; [reflexivity|]. destruct (fix_summands r [] F) as [ES EI]. rewrite EI. unfold fixed_outside, random_outside, offsets, terms_outside. rewrite ES.
    destruct (lone_facts [r] F) as [A B']. rewrite A, B'. cbn [filter]. rewrite B. repeat split.
Qed.

Theorem C73_no_sub_main : forall lhs rhs, ordinary rhs -> substituted rhs = [] -> split_formula (Call [Name "~"; lhs; rhs]) = Ok (Call [Name "~"; lhs; rhs], []).
Proof.
  intros lhs rhs [S C I P] N. unfold split_formula. rewrite terms_formula, (read_eq rhs _ S C). cbn [bind t_lhs t_labels t_offsets t_intercept app].
  replace (existsb within_interaction (filter is_label (summands rhs))) with false.
  2:{ symmetry. apply Bool.not_true_iff_false. intros E. apply existsb_exists in E. destruct E as (x & Ix & Ex). apply filter_In in Ix. rewrite interaction_eq, (I x (proj1 Ix)) in Ex. discriminate. }
  rewrite subexprs_eq. fold (substituted rhs). rewrite N. reflexivity.
Qed.

(** ** Cases *)
Definition plus (a b : rexpr) : rexpr := Call [Name "+"; a; b].
Definition group (a b : rexpr) : rexpr := Call [Name "("; Call [Name "|"; a; b]].
Definition sub_ability : rexpr := Call [Name "-"; Call [Name "["; Name "ability"; Name "player1"]; Call [Name "["; Name "ability"; Name "player2"]].
(** x + offset(w) + Sub(ability[player1] - ability[player2]) *)
Definition case_fixed : rexpr := plus (plus (Name "x") (Call [Name "offset"; Name "w"])) (Call [Name "Sub"; sub_ability]).
(** x + (1 | g) + Sub(ability[player1] - ability[player2]) *)
Definition case_bars : rexpr := plus (plus (Name "x") (group (Const 1) (Name "g"))) (Call [Name "Sub"; sub_ability]).

Ltac ordinary_case := constructor;
  [cbn; tauto
  |intros x H; cbn in H; repeat (destruct H as [<-|H]; [intros C; discriminate C|]); destruct H
  |intros x H; cbn in H; repeat (destruct H as [<-|H]; [reflexivity|]); destruct H
  |intros x H; cbn in H; repeat (destruct H as [<-|H]; [reflexivity|]); destruct H].
Lemma case_fixed_main : ordinary case_fixed /\ substituted case_fixed = [sub_ability] /\ random_outside case_fixed = [] /\ terms_outside case_fixed = [Name "x"] /\
  intercept case_fixed = true /\ offsets case_fixed = [Call [Name "offset"; Name "w"]].
Proof. split; [ordinary_case|]. repeat split. Qed.
Lemma case_bars_main : ordinary case_bars /\ substituted case_bars = [sub_ability] /\ fixed_outside case_bars = [Name "x"] /\ random_outside case_bars = [Call [Name "|"; Const 1; Name "g"]] /\
  split_formula (Call [Name "~"; Name "y"; case_bars]) =
    Ok (Call [Name "~"; Name "y"; Call [Name "-"; group (plus (Name "x") (Const 1)) (Name "g"); Const 1]], [sub_ability]).
Proof. split; [ordinary_case|]. repeat split. Qed.

Theorem C73_intercept_main : exists lhs rhs rhs' subs, ordinary rhs /\ split_formula (Call [Name "~"; lhs; rhs]) = Ok (Call [Name "~"; lhs; rhs'], subs) /\
  intercept rhs = true /\ intercept rhs' = false /\ offsets rhs <> [] /\ offsets rhs' = [].
Proof.
  destruct case_fixed_main as (O & S & Q & T & I & F). destruct (C73_split_main (Name "y") case_fixed O) as (rhs' & E & _ & I' & F').
  - rewrite S. discriminate.
  - now left.
  - exists (Name "y"), case_fixed, rhs', (substituted case_fixed). refine (conj O (conj E (conj I (conj I' (conj _ F'))))). rewrite F. discriminate.
Qed.
