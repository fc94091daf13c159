(** C67: the indices of a substituted variable. *)
From Coq Require Import String List ZArith Bool Lia Arith.
From Verif Require Import Model.Base Model.Indexing Model.Subexpr Model.FindIndices Spec.IndexSpec Spec.SubexprSpec Spec.FindIndexSpec
  Proofs.SubexprLemmas Proofs.IndexMain Proofs.SubMatchMain.
Import ListNotations.
Local Open Scope string_scope.

Section FI.
Variable var : string.
Definition go_fi (i : nat) := fix go (l : list rexpr) : outcome (list string) :=
  match l with [] => Ok [] | y :: l' => a <- find_indices i var y ;; b <- go l' ;; Ok (a ++ b)%list end.
Lemma fi_call i xs : find_indices i var (Call xs) =
  match xs with
  | h :: a :: rest =>
      if is_name h "[" && is_name a var then
        match nth_error rest (i - 1) with Some (Name s) => Ok [s] | _ => Throw RuntimeError end
      else r <- go_fi i xs ;; Ok (distinct r)
  | _ => r <- go_fi i xs ;; Ok (distinct r)
  end.
Proof. destruct xs as [|h [|a rest]]; reflexivity. Qed.

Lemma go_fi_In i xs r : go_fi i xs = Ok r -> forall y, In y xs -> exists a, find_indices i var y = Ok a /\ incl a r.
Proof.
  revert r. induction xs as [|z xs IH]; intros r H y Hy; [contradiction|]. cbn [go_fi] in H.
  apply bind_Ok in H. destruct H as (a & Ha & H). apply bind_Ok in H. destruct H as (b & Hb & H). injection H as <-.
  destruct Hy as [<-|Hy].
  - exists a. split; auto. intros s Hs. apply in_or_app. now left.
  - destruct (IH _ Hb y Hy) as (c & Hc & Hi). exists c. split; auto. intros s Hs. apply in_or_app. right. auto.
Qed.

Lemma is_name_eq x s : is_name x s = true -> x = Name s.
Proof. destruct x; cbn; try discriminate. intros H. apply String.eqb_eq in H. now subst. Qed.

Lemma inside_name y s : inside y (Name s) -> y = Name s.
Proof. intros H. inversion H; reflexivity. Qed.

Lemma inside_cases y xs : inside y (Call xs) -> y = Call xs \/ exists x, In x xs /\ inside y x.
Proof. intros H. inversion H; subst; [now left|right; eauto]. Qed.

Lemma fi_unmatched i xs r : (forall args, xs <> Name "[" :: Name var :: args) -> find_indices i var (Call xs) = Ok r ->
  exists r', go_fi i xs = Ok r' /\ r = distinct r'.
Proof.
  intros Hn H. rewrite fi_call in H. assert (G : bind (go_fi i xs) (fun r => Ok (distinct r)) = Ok r).
  { destruct xs as [|h [|a rest]]; try exact H. destruct (is_name h "[" && is_name a var) eqn:E; [|exact H].
    apply andb_true_iff in E. destruct E as [E1 E2]. apply is_name_eq in E1, E2. subst. now elim (Hn rest). }
  apply bind_Ok in G. destruct G as (r' & G & E). exists r'. split; auto. now injection E as <-.
Qed.

Lemma matched_or xs : {args | xs = Name "[" :: Name var :: args} + {forall args, xs <> Name "[" :: Name var :: args}.
Proof.
  destruct xs as [|h [|a rest]]; try (right; discriminate). destruct (is_name h "[" && is_name a var) eqn:E.
  - left. exists rest. apply andb_true_iff in E. destruct E as [E1 E2]. apply is_name_eq in E1, E2. now subst.
  - right. intros args [= -> -> ->]. cbn in E. rewrite !String.eqb_refl in E. discriminate.
Qed.

Lemma fi_matched i args : find_indices i var (indexed (Name var) args) = match nth_error args (i - 1) with Some (Name s) => Ok [s] | _ => Throw RuntimeError end.
Proof. unfold indexed. rewrite fi_call. cbn [is_name]. rewrite !String.eqb_refl. reflexivity. Qed.

Lemma fi_names n x : all_calls (dimension var n) x -> (forall i, 1 <= i <= n -> exists r, find_indices i var x = Ok r) ->
  forall args, inside (indexed (Name var) args) x -> length args = n /\ exists names, args = map Name names.
Proof.
  induction x as [c|s|xs IH] using rexpr_ind'; intros Hd Hf args Hi; [inversion Hi|inversion Hi|].
  apply all_calls_call in Hd. destruct Hd as [Hd Hall].
  destruct (matched_or xs) as [[rest ->]|Hn].
  - cbn [dimension] in Hd. specialize (Hd eq_refl eq_refl).
    assert (Hr : exists names, rest = map Name names).
    { assert (A : forall k y, nth_error rest k = Some y -> exists s, y = Name s).
      { intros k y E. assert (k < n) by (rewrite <- Hd; apply nth_error_Some; congruence).
        destruct (Hf (S k) ltac:(lia)) as (r & Hr). change (find_indices (S k) var (indexed (Name var) rest) = Ok r) in Hr. rewrite fi_matched in Hr.
        replace (S k - 1) with k in Hr by lia. rewrite E in Hr. destruct y; try discriminate. eauto. }
      clear -A. induction rest as [|y rest IH]; [now exists []|]. destruct (A 0 y eq_refl) as (s & ->).
      destruct IH as (names & ->); [intros k y E; exact (A (S k) y E)|]. now exists (s :: names). }
    apply inside_cases in Hi; destruct Hi as [E|(x & Hx & Hin)].
    + injection E as <-. auto.
    + destruct Hr as (names & ->). destruct Hx as [<-|[<-|Hx]]; try (apply inside_name in Hin; discriminate).
      apply in_map_iff in Hx. destruct Hx as (s & <- & _). apply inside_name in Hin. discriminate.
  - apply inside_cases in Hi; destruct Hi as [E|(x & Hx & Hin)]; [injection E as <-; now elim (Hn args)|].
    rewrite Forall_forall in IH, Hall. apply (IH x Hx); auto.
    intros i Hi'. destruct (Hf i Hi') as (r & Hr). destruct (fi_unmatched _ _ _ Hn Hr) as (r' & Hr' & _).
    destruct (go_fi_In _ _ _ Hr' x Hx) as (a & Ha & _). eauto.
Qed.

Lemma fi_In i x r : find_indices i var x = Ok r -> forall names, (forall args, inside (indexed (Name var) args) x -> exists names, args = map Name names) ->
  inside (indexed (Name var) (map Name names)) x -> exists s, nth_error names (i - 1) = Some s /\ In s r.
Proof.
  revert r. induction x as [c|s|xs IH] using rexpr_ind'; intros r H names Ha Hi; [inversion Hi|inversion Hi|].
  destruct (matched_or xs) as [[rest ->]|Hn].
  - change (find_indices i var (indexed (Name var) rest) = Ok r) in H.
    destruct (Ha rest (inside_here _)) as (names' & ->).
    apply inside_cases in Hi; destruct Hi as [E|(x & Hx & Hin)].
    + injection E as E. rewrite <- E in H. rewrite fi_matched, nth_error_map in H.
      destruct (nth_error names (i - 1)) as [s|]; cbn in H; try discriminate. injection H as <-. exists s. split; auto. now left.
    + destruct Hx as [<-|[<-|Hx]]; try (apply inside_name in Hin; discriminate).
      apply in_map_iff in Hx. destruct Hx as (s & <- & _). apply inside_name in Hin. discriminate.
  - apply inside_cases in Hi; destruct Hi as [E|(x & Hx & Hin)]; [injection E as <-; now elim (Hn (map Name names))|].
    destruct (fi_unmatched _ _ _ Hn H) as (r' & Hr' & ->). destruct (go_fi_In _ _ _ Hr' x Hx) as (a & Ha' & Hincl).
    rewrite Forall_forall in IH. destruct (IH x Hx a Ha' names) as (s & Es & Hs); auto.
    + intros args Hin'. apply Ha. eapply inside_call; eauto.
    + exists s. split; auto. apply distinct_In. auto.
Qed.

(** Conversely. *)
Lemma go_fi_conv i xs r : go_fi i xs = Ok r -> forall s, In s r -> exists y a, In y xs /\ find_indices i var y = Ok a /\ In s a.
Proof.
  revert r. induction xs as [|z xs IH]; intros r H s Hs; cbn [go_fi] in H.
  - injection H as <-. contradiction.
  - apply bind_Ok in H. destruct H as (a & Ha & H). apply bind_Ok in H. destruct H as (b & Hb & H). injection H as <-.
    apply in_app_or in Hs. destruct Hs as [Hs|Hs].
    + exists z, a. split; [now left|auto].
    + destruct (IH _ Hb s Hs) as (y & a' & Hy & H). exists y, a'. split; [now right|auto].
Qed.
Lemma fi_conv i x r s : find_indices i var x = Ok r -> In s r -> exists args, inside (indexed (Name var) args) x /\ nth_error args (i - 1) = Some (Name s).
Proof.
  revert r. induction x as [c|t|xs IH] using rexpr_ind'; intros r H Hs; [injection H as <-; contradiction|injection H as <-; contradiction|].
  destruct (matched_or xs) as [[rest ->]|Hn].
  - change (find_indices i var (indexed (Name var) rest) = Ok r) in H. rewrite fi_matched in H. exists rest. split; [apply inside_here|].
    destruct (nth_error rest (i - 1)) as [[c|t|ys]|]; try discriminate. injection H as <-. destruct Hs as [<-|[]]. reflexivity.
  - destruct (fi_unmatched _ _ _ Hn H) as (r' & Hr' & ->). apply (proj1 (distinct_In s r')) in Hs.
    destruct (go_fi_conv _ _ _ Hr' s Hs) as (y & a & Hy & Ha & Hsa). rewrite Forall_forall in IH.
    destruct (IH y Hy a Ha Hsa) as (args & Hin & E). exists args. split; auto. eapply inside_call; eauto.
Qed.
End FI.

(** Covariates. *)
Definition go_fv (i : nat) (ind : string) := fix go (l : list rexpr) : list string :=
  match l with [] => [] | y :: l' => (find_vars_with_index i ind y ++ go l')%list end.
Lemma fv_call i ind xs : find_vars_with_index i ind (Call xs) =
  match xs with
  | h :: a :: rest =>
      if is_name h "[" && match nth_error rest (i - 1) with Some e => is_name e ind | None => false end
      then character_of a else distinct (go_fv i ind xs)
  | _ => distinct (go_fv i ind xs)
  end.
Proof. destruct xs as [|h [|a rest]]; reflexivity. Qed.
Lemma go_fv_In i ind xs s : In s (go_fv i ind xs) <-> exists y, In y xs /\ In s (find_vars_with_index i ind y).
Proof.
  induction xs as [|z xs IH]; cbn [go_fv]; [firstorder|]. rewrite in_app_iff, IH. split.
  - intros [H|(y & Hy & H)]; [exists z|exists y]; split; auto; [now left|now right].
  - intros (y & [<-|Hy] & H); [now left|right; eauto].
Qed.
Lemma character_named a s : In s (character_of a) <-> named a s.
Proof.
  unfold named. destruct a as [c|t|xs]; cbn [character_of].
  - split; [contradiction|]. intros [H|(xs & H & _)]; discriminate.
  - split; [intros [<-|[]]; now left|]. intros [H|(xs & H & _)]; [injection H as <-; now left|discriminate].
  - rewrite in_flat_map. split.
    + intros (y & Hy & H). destruct y; try contradiction. destruct H as [<-|[]]. right. eauto.
    + intros [H|(xs' & H & Hi)]; [discriminate|]. injection H as <-. exists (Name s). split; auto. now left.
Qed.
Definition hit (i : nat) (ind : string) (xs : list rexpr) : Prop := exists a rest, xs = Name "[" :: a :: rest /\ nth_error rest (i - 1) = Some (Name ind).
Lemma hit_or i ind xs : {ar | xs = Name "[" :: fst ar :: snd ar /\ nth_error (snd ar) (i - 1) = Some (Name ind)} + {~ hit i ind xs}.
Proof.
  destruct xs as [|h [|a rest]]; try (right; intros (? & ? & E & _); discriminate).
  destruct (is_name h "[" && match nth_error rest (i - 1) with Some e => is_name e ind | None => false end) eqn:E.
  - left. exists (a, rest). apply andb_true_iff in E. destruct E as [E1 E2]. apply is_name_eq in E1. subst. split; auto. cbn.
    destruct (nth_error rest (i - 1)) as [e|]; try discriminate. apply is_name_eq in E2. now subst.
  - right. intros (a' & rest' & [= -> -> ->] & E'). rewrite E' in E. cbn in E. rewrite !String.eqb_refl in E. discriminate.
Qed.
Lemma fv_hit i ind a rest : nth_error rest (i - 1) = Some (Name ind) -> find_vars_with_index i ind (indexed a rest) = character_of a.
Proof. intros E. unfold indexed. rewrite fv_call, E. cbn [is_name]. rewrite !String.eqb_refl. reflexivity. Qed.
Lemma fv_miss i ind xs : ~ hit i ind xs -> find_vars_with_index i ind (Call xs) = distinct (go_fv i ind xs).
Proof.
  intros Hn. rewrite fv_call. destruct xs as [|h [|a rest]]; auto.
  destruct (is_name h "[" && match nth_error rest (i - 1) with Some e => is_name e ind | None => false end) eqn:E; auto.
  elim Hn. apply andb_true_iff in E. destruct E as [E1 E2]. apply is_name_eq in E1. subst. exists a, rest. split; auto.
  destruct (nth_error rest (i - 1)) as [e|]; try discriminate. apply is_name_eq in E2. now subst.
Qed.
Lemma fv_sound i ind x s : In s (find_vars_with_index i ind x) ->
  exists a args, inside (indexed a args) x /\ nth_error args (i - 1) = Some (Name ind) /\ named a s.
Proof.
  induction x as [c|t|xs IH] using rexpr_ind'; intros H; [contradiction|contradiction|].
  destruct (hit_or i ind xs) as [[[a rest] [-> E]]|Hn].
  - cbn [fst snd] in *. change (In s (find_vars_with_index i ind (indexed a rest))) in H. rewrite (fv_hit _ _ _ _ E) in H.
    exists a, rest. split; [apply inside_here|]. split; auto. now apply character_named.
  - rewrite (fv_miss _ _ _ Hn) in H. apply (proj1 (distinct_In s _)) in H. apply go_fv_In in H. destruct H as (y & Hy & H).
    rewrite Forall_forall in IH. destruct (IH y Hy H) as (a & args & Hi & E). exists a, args. split; auto. eapply inside_call; eauto.
Qed.

Lemma fv_complete i ind x : no_nesting x -> forall s a args, inside (indexed a args) x -> nth_error args (i - 1) = Some (Name ind) -> named a s ->
  In s (find_vars_with_index i ind x).
Proof.
  induction x as [c|t|xs IH] using rexpr_ind'; intros Hn s a args Hi E Hs; [inversion Hi|inversion Hi|].
  destruct (hit_or i ind xs) as [[[a' rest] [-> E']]|Hm].
  - cbn [fst snd] in *. change (In s (find_vars_with_index i ind (indexed a' rest))). rewrite (fv_hit _ _ _ _ E').
    apply inside_cases in Hi; destruct Hi as [E2|(x & Hx & Hin)].
    + injection E2 as <- <-. now apply character_named.
    + exfalso. destruct Hx as [<-|Hx]; [apply inside_name in Hin; discriminate|]. exact (Hn a' rest x (inside_here _) Hx a args Hin).
  - rewrite (fv_miss _ _ _ Hm). apply distinct_In, go_fv_In. apply inside_cases in Hi; destruct Hi as [E2|(x & Hx & Hin)].
    + injection E2 as <-. elim Hm. exists a, args. auto.
    + exists x. split; auto. rewrite Forall_forall in IH. apply (IH x Hx) with (a := a) (args := args); auto.
      intros b args' y Hb. apply (Hn b args' y). eapply inside_call; eauto.
Qed.

(** Numbers. *)
Local Open Scope Z_scope.
Lemma insert_In z y l : In y (insert_sorted z l) <-> y = z \/ In y l.
Proof.
  induction l as [|x l IH]; cbn [insert_sorted In]; [intuition congruence|].
  destruct (z <? x) eqn:E1; [cbn; intuition congruence|]. destruct (Z.eqb_spec z x) as [->|Hne]; cbn [In]; [intuition congruence|]. rewrite IH. intuition congruence.
Qed.
Lemma sort_unique_In y l : In y (sort_unique l) <-> In y l.
Proof. induction l as [|x l IH]; cbn [sort_unique fold_right]; [tauto|]. rewrite insert_In. unfold sort_unique in IH. rewrite IH. cbn. intuition congruence. Qed.
Lemma no_gaps_le l z : (forall y, 1 <= y <= z -> In y l) -> z <= Z.of_nat (length (sort_unique l)).
Proof.
  intros H. destruct (Z_le_gt_dec z 0); [lia|]. assert (D : NoDup (upto z)).
  { unfold upto. apply FinFun.Injective_map_NoDup; [intros a b; apply Nat2Z.inj|apply seq_NoDup]. }
  assert (L : (length (upto z) <= length (sort_unique l))%nat).
  { apply (NoDup_incl_length D). intros y Hy. apply sort_unique_In, H. now apply upto_In. }
  rewrite <- (upto_length z ltac:(lia)). lia.
Qed.
Lemma fold_max_le l : forall a, a <= fold_left Z.max l a /\ forall y, In y l -> y <= fold_left Z.max l a.
Proof.
  induction l as [|x l IH]; intros a; cbn [fold_left In]; [split; [lia|contradiction]|]. destruct (IH (Z.max a x)) as [H1 H2]. split; [lia|].
  intros y [<-|Hy]; [lia|auto].
Qed.
Lemma fold_max_in l : forall a, In (fold_left Z.max l a) (a :: l).
Proof.
  induction l as [|x l IH]; intros a; cbn [fold_left]; [now left|]. destruct (Z.max_spec a x) as [[_ ->]|[_ ->]].
  - right. apply IH.
  - destruct (IH a) as [H|H]; [now left|right; now right].
Qed.
Lemma dim_extent i x n : find_dim_in_dir i x = Ok n -> (1 <= i)%nat -> extent (i - 1) x n.
Proof.
  unfold find_dim_in_dir. intros H Hi. destruct x as [c l|v dims|v]; cbn [dims_of length_of length] in H.
  - destruct (Nat.eqb_spec i 1) as [->|Hne]; cbn in H; [injection H as <-; reflexivity|]. destruct (nth_error [] (i - 1)) eqn:E in H; [destruct (i - 1)%nat; discriminate|discriminate].
  - destruct dims as [|n' dims]; cbn [length] in H.
    + destruct (Nat.eqb_spec i 1) as [->|Hne]; cbn in H; [injection H as <-; reflexivity|]. destruct (nth_error [] (i - 1)) eqn:E in H; [destruct (i - 1)%nat; discriminate|discriminate].
    + cbn [Nat.eqb andb] in H. destruct (nth_error (n' :: dims) (i - 1)) as [m|] eqn:E; [|discriminate]. injection H as <-. unfold extent. destruct (i - 1)%nat; exact E.
  - destruct (Nat.eqb_spec i 1) as [->|Hne]; cbn in H; [injection H as <-; reflexivity|]. destruct (nth_error [] (i - 1)) eqn:E in H; [destruct (i - 1)%nat; discriminate|discriminate].
Qed.
Lemma colon_upto n : 1 <= n -> colon n = upto n.
Proof. intros H. unfold colon. destruct (Z.eqb_spec n 0); [lia|reflexivity]. Qed.

Lemma Forall2_In_r {A B} (P : A -> B -> Prop) l r y : Forall2 P l r -> In y r -> exists x, In x l /\ P x y.
Proof. induction 1 as [|a b l r H F IH]; [contradiction|]; intros [<-|Hy]; [exists a; split; [now left|auto]|]. destruct (IH Hy) as (x & Hx & HP). exists x. split; [now right|auto]. Qed.
Lemma Forall2_In_l {A B} (P : A -> B -> Prop) l r x : Forall2 P l r -> In x l -> exists y, In y r /\ P x y.
Proof. induction 1 as [|a b l r H F IH]; [contradiction|]; intros [<-|Hy]; [exists b; split; [now left|auto]|]. destruct (IH Hy) as (y & Hx & HP). exists y. split; [now right|auto]. Qed.

Section Loop.
Variables (subvar : string) (subform subexpr : rexpr) (data : rdata).

Lemma in_data_covariate i ind x : (1 <= i)%nat ->
  In x (flat_map (fun s => match lookup data s with Some x => [x] | None => [] end) (filter (exists_in data) (find_vars_with_index i ind subform))) ->
  covariate subform data (i - 1) ind x.
Proof.
  intros Hi H. apply in_flat_map in H. destruct H as (s & Hs & H). apply filter_In in Hs. destruct Hs as [Hs _].
  destruct (lookup data s) as [y|] eqn:E; [|contradiction]. destruct H as [<-|[]].
  destruct (fv_sound _ _ _ _ Hs) as (a & args & Hin & Ea & Hn). exists a, args, s. auto.
Qed.
Lemma covariate_in_data i ind x : no_nesting subform -> (1 <= i)%nat -> covariate subform data (i - 1) ind x ->
  In x (flat_map (fun s => match lookup data s with Some x => [x] | None => [] end) (filter (exists_in data) (find_vars_with_index i ind subform))).
Proof.
  intros Hnn Hi (a & args & s & Hin & Ea & Hn & El). apply in_flat_map. exists s. split.
  - apply filter_In. split; [now apply fv_complete with (a := a) (args := args)|]. unfold exists_in. now rewrite El.
  - rewrite El. now left.
Qed.

(** What is known of one index. *)
Definition good_index (i : nat) (ind : string) (ix : index) : Prop :=
  find_indices i subvar subform = Ok [ind] /\
  exists inds cols, find_indices i subvar subexpr = Ok inds /\ Forall2 (fun s x => lookup data s = Some x) inds cols /\
  ((exists l, ix = Levels l /\ forall x, In x cols -> exists c, x = Fac c l) \/
   ((forall x, In x cols -> exists v d, x = Num v d) /\ exists m, ix = Numbers (colon m) /\
     ((exists x, covariate subform data (i - 1) ind x /\ extent (i - 1) x m) \/
      ((no_nesting subform -> forall x, ~ covariate subform data (i - 1) ind x) /\ m = Z.of_nat (length (sort_unique (flat_map values_of cols))))))).

Lemma lookups inds cols : mapM (fun s => match lookup data s with Some x => Ok x | None => Throw RuntimeError end) inds = Ok cols ->
  Forall2 (fun s x => lookup data s = Some x) inds cols.
Proof.
  intros H. apply mapM_Forall2 in H. induction H as [|s x inds cols H]; constructor; auto.
  destruct (lookup data s); try discriminate. now injection H as ->.
Qed.

Lemma one_good ii idx i st : (1 <= i)%nat -> one_direction subvar subform subexpr (data, ii, idx) i = Ok st ->
  exists ind ix data' ii', st = (data', ii', idx ++ [(ind, ix)])%list /\
    (lookup data ind = None -> data' = data /\ good_index i ind ix).
Proof.
  intros Hi H. unfold one_direction in H. apply bind_Ok in H. destruct H as (inds & Hinds & H). apply bind_Ok in H. destruct H as (cols & Hcols & H).
  apply bind_Ok in H. destruct H as (js & Hj & H). destruct js as [|ind [|]]; try discriminate.
  apply bind_Ok in H. destruct H as ([data' ii'] & H1 & H). apply bind_Ok in H. destruct H as (ix & Hix & H). injection H as <-.
  exists ind, ix, data', ii'. split; [reflexivity|]. intros El. rewrite El in H1. apply lookups in Hcols.
  assert (X : forall ix0, find_index_i ind i (Some ix0) subform data = Ok ix ->
    exists m, match ix0 with Levels l => ix = Levels l | Numbers _ => ix = Numbers (colon m) end /\
     ((exists x, covariate subform data (i - 1) ind x /\ extent (i - 1) x m) \/
      ((no_nesting subform -> forall x, ~ covariate subform data (i - 1) ind x) /\ m = index_length ix0))).
  { intros ix0 E. unfold find_index_i in E. apply bind_Ok in E. destruct E as (ns & Hns & E).
    exists (match ns with [] => index_length ix0 | n :: ns' => fold_left Z.max ns' n end). split.
    - destruct ix0 as [l|v]; [|now injection E as <-]. destruct (Z.of_nat (length l) =? _) eqn:E2 in E; [now injection E as <-|discriminate].
    - apply mapM_Forall2 in Hns. destruct ns as [|n ns].
      + right. split; [|reflexivity]. intros Hnn x Hx. apply (covariate_in_data _ _ _ Hnn Hi) in Hx. inversion Hns as [E0 |]. rewrite <- E0 in Hx. exact Hx.
      + left. pose proof (fold_max_in ns n) as Hin.
        destruct (Forall2_In_r _ _ _ _ Hns Hin) as (x & Hx & Hd). exists x. split; [now apply in_data_covariate|]. now apply dim_extent. }
  destruct (forallb is_factor cols) eqn:Ef.
  - destruct (forallb _ cols) eqn:El2 in H1; [|discriminate]. injection H1 as <- <-. split; [reflexivity|]. split; [exact Hj|].
    exists inds, cols. split; [exact Hinds|]. split; [exact Hcols|]. left. destruct (X _ Hix) as (m & -> & _). eexists. split; [reflexivity|].
    intros x Hx. rewrite forallb_forall in Ef, El2. specialize (Ef x Hx). specialize (El2 x Hx).
    destruct x as [c l|v d|v]; try discriminate. exists c. destruct (list_eq_dec string_dec _ _) as [E|] in El2; [|discriminate]. cbn [levels_of] in E. now rewrite E.
  - destruct (forallb is_numeric cols) eqn:En; [|discriminate]. injection H1 as <- <-. split; [reflexivity|]. split; [exact Hj|].
    exists inds, cols. split; [exact Hinds|]. split; [exact Hcols|]. right. split.
    + intros x Hx. rewrite forallb_forall in En. specialize (En x Hx). destruct x as [c l|v d|v]; try discriminate. eauto.
    + destruct (X _ Hix) as (m & -> & Hm). exists m. split; [reflexivity|exact Hm].
Qed.
End Loop.

(** The loop. *)
Lemma loop_good subvar subform subexpr data n : forall a ii idx0 st, (1 <= a)%nat ->
  foldM (one_direction subvar subform subexpr) (seq a n) (data, ii, idx0) = Ok st ->
  exists tail, snd st = (idx0 ++ tail)%list /\ length tail = n /\
    ((forall s, In s (map fst tail) -> lookup data s = None) -> fst (fst st) = data /\
     forall k ind ix, nth_error tail k = Some (ind, ix) -> good_index subvar subform subexpr data (a + k) ind ix).
Proof.
  induction n as [|n IH]; intros a ii idx0 st Ha H; cbn [seq foldM] in H.
  - injection H as <-. exists []. rewrite app_nil_r. split; [reflexivity|]. split; [reflexivity|]. intros _. split; [reflexivity|]. intros [|k] ind ix E; discriminate.
  - apply bind_Ok in H. destruct H as (st1 & H1 & H). destruct (one_good _ _ _ _ _ _ _ _ Ha H1) as (ind & ix & d' & ii' & -> & G).
    assert (Tail : exists tail, snd st = ((idx0 ++ [(ind, ix)]) ++ tail)%list /\ length tail = n).
    { clear -H. revert H. generalize (idx0 ++ [(ind, ix)])%list. generalize (S a). revert d' ii'. induction n as [|n IH]; intros d' ii' b idx1 H; cbn [seq foldM] in H.
      - injection H as <-. exists []. now rewrite app_nil_r.
      - apply bind_Ok in H. destruct H as (st1 & H1 & H).
        assert (E : exists y d2 ii2, st1 = (d2, ii2, idx1 ++ [y])%list).
        { unfold one_direction in H1. repeat (apply bind_Ok in H1; destruct H1 as (? & ? & H1)).
          match type of H1 with match ?l with _ => _ end = _ => destruct l as [|i1 [|]]; try discriminate end.
          apply bind_Ok in H1. destruct H1 as ([d2 ii2] & _ & H1). apply bind_Ok in H1. destruct H1 as (ix2 & _ & H1). injection H1 as <-. eauto. }
        destruct E as (y & d2 & ii2 & ->). destruct (IH _ _ _ _ H) as (tail & E & L). exists (y :: tail). split; [rewrite E, <- app_assoc; reflexivity|cbn; now rewrite L]. }
    destruct Tail as (tail & E & L). exists ((ind, ix) :: tail). split; [rewrite E, <- app_assoc; reflexivity|]. split; [cbn; now rewrite L|].
    intros Hn. destruct (G (Hn ind (or_introl eq_refl))) as [-> G1]. destruct (IH (S a) ii' _ st ltac:(lia) H) as (tail' & E' & L' & G').
    assert (tail' = tail) by (rewrite E in E'; apply app_inv_head in E'; congruence). subst tail'.
    destruct (G' (fun s Hs => Hn s (or_intror Hs))) as [D G2]. split; [exact D|]. intros [|k] ind' ix' Ek.
    + injection Ek as <- <-. now rewrite Nat.add_0_r.
    + replace (a + S k)%nat with (S a + k)%nat by lia. now apply G2.
Qed.

(** expand.grid. *)
Definition choose {A} (d : A) (ls : list (list A)) (t : list Z) : list A := map (fun li => nth (Z.to_nat (snd li - 1)) (fst li) d) (combine ls t).
Lemma upto_all {A} (d : A) (l : list A) : map (fun i => nth (Z.to_nat (i - 1)) l d) (upto (Z.of_nat (length l))) = l.
Proof.
  apply (nth_ext _ _ d d).
  - unfold upto. rewrite !map_length, seq_length, Nat2Z.id. reflexivity.
  - intros k Hk. rewrite map_length in Hk. pose proof (upto_length (Z.of_nat (length l)) ltac:(lia)) as E. rewrite (nth_indep _ d (nth (Z.to_nat (0 - 1)) l d)) by now rewrite map_length.
    rewrite (map_nth (fun i => nth (Z.to_nat (i - 1)) l d)), upto_nth by lia. f_equal. lia.
Qed.
Lemma expand_as_grid {A} (d : A) ls : expand_grid ls = map (choose d ls) (grid (map (fun l => Z.of_nat (length l)) ls)).
Proof.
  induction ls as [|l ls IH]; [reflexivity|]. cbn [expand_grid grid map]. rewrite IH, concat_map, !map_map. f_equal. apply map_ext. intros t.
  rewrite map_map. unfold choose at 2. cbn [combine map fst snd].
  rewrite <- (upto_all d l) at 1. rewrite map_map. reflexivity.
Qed.

(** One observation. *)
Lemma Forall2_len {A B} (P : A -> B -> Prop) l r : Forall2 P l r -> length l = length r.
Proof. induction 1; cbn; congruence. Qed.
Lemma map_Some_inj {A} (u v : list A) : map Some u = map Some v -> u = v.
Proof. revert v. induction u as [|x u IH]; intros [|y v] E; try discriminate; [reflexivity|]. injection E as -> E. f_equal. auto. Qed.

Lemma nth_error_combine_some {A B} (l : list A) (r : list B) i a b : nth_error l i = Some a -> nth_error r i = Some b -> nth_error (combine l r) i = Some (a, b).
Proof. revert r i. induction l as [|x l IH]; intros [|y r] [|i] E1 E2; try discriminate; cbn in *; [congruence|auto]. Qed.
Lemma Forall2_nth_ok {A B} (P : A -> B -> Prop) l r : length l = length r -> (forall k a b, nth_error l k = Some a -> nth_error r k = Some b -> P a b) -> Forall2 P l r.
Proof.
  revert r. induction l as [|a l IH]; intros [|b r] L H; try discriminate; constructor.
  - exact (H 0%nat a b eq_refl eq_refl).
  - apply IH; [now injection L|]. intros k x y E1 E2. exact (H (S k) x y E1 E2).
Qed.
Lemma Forall2_nth_get {A B} (P : A -> B -> Prop) l r k a : Forall2 P l r -> nth_error l k = Some a -> exists b, nth_error r k = Some b /\ P a b.
Proof.
  intros F. revert k. induction F as [|x y l r H F IH]; intros [|k] E; try discriminate.
  - injection E as <-. exists y. auto.
  - exact (IH k E).
Qed.
Lemma Forall2_nth_get_r {A B} (P : A -> B -> Prop) l r k b : Forall2 P l r -> nth_error r k = Some b -> exists a, nth_error l k = Some a /\ P a b.
Proof.
  intros F. revert k. induction F as [|x y l r H F IH]; intros [|k] E; try discriminate.
  - injection E as <-. exists x. auto.
  - exact (IH k E).
Qed.

Lemma C67_rows_main subvar subform subexpr data data' idx :
  find_indices_subform subvar subform subexpr data = Ok (data', idx) -> idx <> [] ->
  (forall s, In s (map fst idx) -> lookup data s = None) ->
  no_nesting subform -> numbers_ok subvar subform subexpr data (map fst idx) ->
  data' = data /\ (forall args, inside (indexed (Name subvar) args) subform -> args = map Name (map fst idx)) /\
  forall args, inside (indexed (Name subvar) args) subexpr ->
  exists names cols, args = map Name names /\ length names = length idx /\ Forall2 (fun s x => lookup data s = Some x) names cols /\
  forall k ids, Forall2 (fun x v => as_numeric x = map Some v /\ length v = k) cols ids ->
  (forall j, (j < k)%nat -> exists t, Forall2 (fun x l => label_at x j = Some l) cols t) ->
  let flat := flatten_vars ids (map (fun ni => index_length (snd ni)) idx) in
  length flat = k /\ forall j t, (j < k)%nat -> Forall2 (fun x l => label_at x j = Some l) cols t ->
    1 <= nth j flat 0 /\ nth_error (expand_grid (map (fun ni => labels (snd ni)) idx)) (Z.to_nat (nth j flat 0 - 1)) = Some t.
Proof.
  intros H Hne Hnames Hnn Hnum. unfold find_indices_subform in H. apply bind_Ok in H. destruct H as (d & Hd & H). apply bind_Ok in H. destruct H as (d2 & Hd2 & H).
  destruct d as [n|]; [|discriminate]. destruct d2 as [n'|]; [|discriminate]. destruct (Nat.eqb_spec n' n) as [->|]; [|discriminate].
  apply bind_Ok in H. destruct H as ([[d' ii'] idx'] & Hl & H). injection H as <- <-.
  destruct (loop_good _ _ _ _ _ _ _ _ _ (le_n 1) Hl) as (tail & E & Hlen & G). cbn [snd fst app] in E, G. subst tail.
  destruct (G Hnames) as [-> GI]. clear G Hl. split; [reflexivity|].
  pose proof (proj2 (find_dim_keep subvar subexpr) None n Hd) as Dexpr. pose proof (proj2 (find_dim_keep subvar subform) None n Hd2) as Dform.
  assert (GI' : forall i, (1 <= i <= n)%nat -> exists ind ix, nth_error idx' (i - 1) = Some (ind, ix) /\ good_index subvar subform subexpr data i ind ix).
  { intros i Hi. destruct (nth_error idx' (i - 1)) as [[ind ix]|] eqn:E; [|apply nth_error_None in E; lia].
    exists ind, ix. split; [reflexivity|]. pose proof (GI _ _ _ E) as X. replace (1 + (i - 1))%nat with i in X by lia. exact X. }
  assert (Nform : forall args, inside (indexed (Name subvar) args) subform -> length args = n /\ exists names, args = map Name names).
  { apply fi_names; auto. intros i Hi. destruct (GI' i Hi) as (ind & ix & _ & F & _). eauto. }
  assert (Nexpr : forall args, inside (indexed (Name subvar) args) subexpr -> length args = n /\ exists names, args = map Name names).
  { apply fi_names; auto. intros i Hi. destruct (GI' i Hi) as (ind & ix & _ & _ & inds & cols & F & _). eauto. }
  split.
  { intros args Hin. destruct (Nform args Hin) as [La (names & ->)]. rewrite map_length in La. f_equal.
    apply (nth_ext _ _ "" ""); [now rewrite map_length, Hlen|]. intros k Hk. destruct (GI' (S k) ltac:(lia)) as (ind & ix & E & F & _).
    destruct (fi_In _ _ _ _ F names (fun args Ha => proj2 (Nform args Ha)) Hin) as (s' & Es & [<-|[]]).
    replace (S k - 1)%nat with k in * by lia. rewrite (nth_error_nth _ _ _ Es). symmetry. apply nth_error_nth. rewrite nth_error_map, E. reflexivity. }
  assert (Mem : forall i ind ix names s inds, nth_error idx' i = Some (ind, ix) -> inside (indexed (Name subvar) (map Name names)) subexpr ->
    find_indices (S i) subvar subexpr = Ok inds -> nth_error names i = Some s -> In s inds).
  { intros i ind ix names s inds _ Hin F Es. destruct (fi_In _ _ _ _ F names (fun args Ha => proj2 (Nexpr args Ha)) Hin) as (s' & Es' & Hs).
    replace (S i - 1)%nat with i in Es' by lia. rewrite Es in Es'. now injection Es' as <-. }
  intros args Hin. destruct (Nexpr args Hin) as [La (names & ->)]. rewrite map_length in La.
  assert (C : exists cols, Forall2 (fun s x => lookup data s = Some x) names cols).
  { assert (A : forall s, In s names -> exists x, lookup data s = Some x).
    { intros s Hs. apply In_nth_error in Hs. destruct Hs as (k & Ek). assert (k < n)%nat by (rewrite <- La; apply nth_error_Some; congruence).
      destruct (GI' (S k) ltac:(lia)) as (ind & ix & _ & _ & inds & cols & F & FL & _).
      destruct (fi_In _ _ _ _ F names (fun args Ha => proj2 (Nexpr args Ha)) Hin) as (s' & Es & Hs).
      replace (S k - 1)%nat with k in Es by lia. rewrite Ek in Es. injection Es as <-. destruct (Forall2_In_l _ _ _ _ FL Hs) as (x & _ & Hx). eauto. }
    clear -A. induction names as [|s names IH]; [exists []; constructor|]. destruct (A s (or_introl eq_refl)) as (x & Hx).
    destruct IH as (cols & F); [intros t Ht; apply A; now right|]. exists (x :: cols). now constructor. }
  destruct C as (cols & Hcols). exists names, cols. split; [reflexivity|]. split; [lia|]. split; [exact Hcols|].
  assert (Lc : length cols = n) by (rewrite <- La; symmetry; eapply Forall2_len; exact Hcols).
  intros k ids Hids Hlab.
  assert (Li : length ids = n) by (rewrite <- Lc; symmetry; eapply Forall2_len; exact Hids).
  set (ls := map (fun ni : string * index => index_length (snd ni)) idx').
  assert (Ll : length ls = n) by (unfold ls; now rewrite map_length).
  (* one index at one observation *)
  assert (One : forall i ni x v j l, nth_error idx' i = Some ni -> nth_error cols i = Some x -> nth_error ids i = Some v -> (j < k)%nat -> label_at x j = Some l ->
    1 <= nth j v 0 <= index_length (snd ni) /\ nth_error (labels (snd ni)) (Z.to_nat (nth j v 0 - 1)) = Some l).
  { intros i [ind ix] x v j l Ei Ec Ev Hj Hlabel. cbn [snd].
    destruct (GI i ind ix Ei) as (F & inds & cols' & Fi & FL & Cases). cbn [Nat.add] in *. replace (S i - 1)%nat with i in Cases by lia.
    destruct (Forall2_nth_get_r _ _ _ _ _ Hcols Ec) as (s & Es & Ls).
    pose proof (Mem i ind ix names s inds Ei Hin Fi Es) as Hs. destruct (Forall2_In_l _ _ _ _ FL Hs) as (x' & Hx' & Ls'). rewrite Ls in Ls'. injection Ls' as <-.
    destruct (Forall2_nth_get _ _ _ _ _ Hids Ec) as (v' & Ev' & Hv & Lv). rewrite Ev in Ev'. injection Ev' as <-.
    assert (Ez : nth_error v j = Some (nth j v 0)) by (apply nth_error_nth'; lia). set (z := nth j v 0) in *.
    destruct Cases as [(lv & -> & Hl)|(Hn & m & -> & Hm)].
    - destruct (Hl x Hx') as (c & ->). cbn [as_numeric] in Hv. cbn [label_at] in Hlabel. rewrite Hv, nth_error_map, Ez in Hlabel. cbn [option_map] in Hlabel.
      destruct (Z.leb_spec 1 z) as [Hz|]; [|discriminate]. cbn [labels index_length]. rewrite nth_error_map.
      split; [|exact Hlabel]. destruct (nth_error lv (Z.to_nat (z - 1))) eqn:E2; [|discriminate].
      assert (Z.to_nat (z - 1) < length lv)%nat by (apply nth_error_Some; congruence). lia.
    - destruct (Hn x Hx') as (w & dm & ->). cbn [as_numeric] in Hv. apply map_Some_inj in Hv. subst w. cbn [label_at] in Hlabel. rewrite Ez in Hlabel. injection Hlabel as <-.
      assert (U : used subvar subexpr data i z).
      { exists (map Name names), s, v, dm. split; [exact Hin|]. split; [rewrite nth_error_map, Es; reflexivity|]. split; [exact Ls|]. eapply nth_error_In; eauto. }
      assert (Ni : nth_error (map fst idx') i = Some ind) by (rewrite nth_error_map, Ei; reflexivity).
      destruct (Hnum i ind z Ni U) as (Hz & Hcov & Hgap).
      assert (Hzm : z <= m).
      { destruct Hm as [(y & Cy & Ey)|[Nc ->]]; [exact (Hcov y m Cy Ey)|]. apply no_gaps_le. intros y Hy.
        destruct (Hgap (Nc Hnn) y Hy) as (args' & s' & v' & dm' & Hin' & Es' & Ls' & Hy').
        destruct (proj2 (Nexpr args' Hin')) as (names' & ->). rewrite nth_error_map in Es'. destruct (nth_error names' i) as [s2|] eqn:Es2; [|discriminate]. injection Es' as ->.
        pose proof (Mem i ind _ names' s' inds Ei Hin' Fi Es2) as Hs'. destruct (Forall2_In_l _ _ _ _ FL Hs') as (x2 & Hx2 & Ls2). rewrite Ls' in Ls2. injection Ls2 as <-.
        apply in_flat_map. exists (Num v' dm'). split; auto. }
      cbn [labels index_length]. rewrite (colon_upto m) by lia. rewrite upto_length by lia. split; [lia|].
      rewrite nth_error_map. assert (L : (Z.to_nat (z - 1) < length (upto m))%nat) by (pose proof (upto_length m ltac:(lia)); lia).
      rewrite (nth_error_nth' _ 0 L), upto_nth by lia. cbn. do 2 f_equal. lia. }
  assert (Wit : forall j, (j < k)%nat -> within ls (map (fun v => nth j v 0) ids)).
  { intros j Hj. destruct (Hlab j Hj) as (t & Ht). apply Forall2_nth_ok; [rewrite map_length; lia|].
    intros i nn b E1 E2. unfold ls in E1. rewrite nth_error_map in E1, E2. destruct (nth_error idx' i) as [ni|] eqn:Ei; [|discriminate]. injection E1 as <-.
    destruct (nth_error ids i) as [v|] eqn:Ev; [|discriminate]. injection E2 as <-.
    destruct (Forall2_nth_get_r _ _ _ _ _ Hids Ev) as (x & Ex & _). destruct (Forall2_nth_get _ _ _ _ _ Ht Ex) as (l & _ & Hl).
    exact (proj1 (One i ni x v j l Ei Ex Ev Hj Hl)). }
  destruct (C40_main ls ids k) as [Lf Hf].
  { intros E. apply Hne. unfold ls in E. now apply map_eq_nil in E. }
  { lia. }
  { intros v Hv. destruct (Forall2_In_r _ _ _ _ Hids Hv) as (x & _ & _ & L). exact L. }
  { exact Wit. }
  split; [exact Lf|]. intros j t Hj Ht. specialize (Hf j Hj). cbv zeta in Hf. destruct Hf as [Hr Hg]. fold ls. split; [lia|].
  set (f := nth j (flatten_vars ids ls) 0) in *.
  rewrite (expand_as_grid (Number 0)).
  assert (El : map (fun l => Z.of_nat (length l)) (map (fun ni : string * index => labels (snd ni)) idx') = ls).
  { unfold ls. rewrite map_map. apply map_ext. intros [s [l|l]]; cbn; now rewrite map_length. }
  rewrite El, nth_error_map.
  assert (Pos : List.Forall (fun n => 1 <= n) ls) by (eapply within_pos; exact (Wit j Hj)).
  rewrite (nth_error_nth' (grid ls) []) by (pose proof (grid_length ls Pos); lia). cbn [option_map]. rewrite Hg. f_equal.
  unfold choose. apply (nth_ext _ _ (Number 0) (Number 0)).
  - pose proof (Forall2_len _ _ _ Ht). rewrite map_length, combine_length, !map_length. lia.
  - intros i Hi. rewrite map_length, combine_length, !map_length in Hi.
    assert (Hin' : (i < n)%nat) by lia.
    destruct (nth_error idx' i) as [ni|] eqn:Ei; [|apply nth_error_None in Ei; lia].
    destruct (nth_error ids i) as [v|] eqn:Ev; [|apply nth_error_None in Ev; lia].
    destruct (nth_error cols i) as [x|] eqn:Ex; [|apply nth_error_None in Ex; lia].
    destruct (Forall2_nth_get _ _ _ _ _ Ht Ex) as (l & Etl & Hl). destruct (One i ni x v j l Ei Ex Ev Hj Hl) as [_ Hlab'].
    rewrite (nth_error_nth _ _ _ Etl).
    apply nth_error_nth. rewrite nth_error_map.
    assert (Ec : nth_error (combine (map (fun ni : string * index => labels (snd ni)) idx') (map (fun v => nth j v 0) ids)) i = Some (labels (snd ni), nth j v 0)).
    { apply nth_error_combine_some; rewrite nth_error_map; [rewrite Ei|rewrite Ev]; reflexivity. }
    rewrite Ec. cbn [option_map fst snd]. f_equal. now apply nth_error_nth.
Qed.

(** An index that is a variable of the data. *)
Lemma C67_index_in_data_main subvar subform subexpr data data' ind ix rest :
  find_indices_subform subvar subform subexpr data = Ok (data', (ind, ix) :: rest) -> lookup data ind = None.
Proof.
  intros H. unfold find_indices_subform in H. apply bind_Ok in H. destruct H as (d & _ & H). apply bind_Ok in H. destruct H as (d2 & _ & H).
  destruct d as [n|]; [|discriminate]. destruct d2 as [n'|]; [|discriminate]. destruct (Nat.eqb n' n); [|discriminate].
  apply bind_Ok in H. destruct H as ([[d' ii'] idx'] & Hl & H). injection H as -> ->.
  destruct n as [|n]; cbn [seq foldM] in Hl; [discriminate|]. apply bind_Ok in Hl. destruct Hl as (st1 & H1 & Hl).
  assert (E : exists d2 ii2 ix2, st1 = (d2, ii2, [(ind, ix2)])).
  { destruct st1 as [[d2 ii2] idx1]. assert (Pre : forall n a d ii idx st, foldM (one_direction subvar subform subexpr) (seq a n) (d, ii, idx) = Ok st -> exists tail, snd st = (idx ++ tail)%list).
    { clear. induction n as [|n IH]; intros a d ii idx st H; cbn [seq foldM] in H; [injection H as <-; exists []; now rewrite app_nil_r|].
      apply bind_Ok in H. destruct H as (st1 & H1 & H).
      assert (E : exists y d2 ii2, st1 = (d2, ii2, idx ++ [y])%list).
      { unfold one_direction in H1. repeat (apply bind_Ok in H1; destruct H1 as (? & ? & H1)).
        match type of H1 with match ?l with _ => _ end = _ => destruct l as [|i1 [|]]; try discriminate end.
        apply bind_Ok in H1. destruct H1 as ([d2 ii2] & _ & H1). apply bind_Ok in H1. destruct H1 as (ix2 & _ & H1). injection H1 as <-. eauto. }
      destruct E as (y & d2 & ii2 & ->). destruct (IH _ _ _ _ _ H) as (tail & E). exists (y :: tail). rewrite E, <- app_assoc. reflexivity. }
    destruct (Pre _ _ _ _ _ _ Hl) as (tail & E). cbn [snd] in E.
    destruct (one_good _ _ _ _ _ _ _ _ (le_n 1) H1) as (i1 & ix1 & d1 & ii1 & E1 & _). injection E1 as -> -> ->. cbn [app] in E. injection E as <- <- _. eauto. }
  destruct E as (d2 & ii2 & ix2 & ->). unfold one_direction in H1. apply bind_Ok in H1. destruct H1 as (inds & _ & H1).
  apply bind_Ok in H1. destruct H1 as (cols & _ & H1). apply bind_Ok in H1. destruct H1 as (js & _ & H1). destruct js as [|i1 [|]]; try discriminate.
  apply bind_Ok in H1. destruct H1 as ([d3 ii3] & H2 & H1). apply bind_Ok in H1. destruct H1 as (ix3 & H3 & H1). injection H1 as -> -> E E2. subst i1.
  destruct (lookup data ind) eqn:El; [|reflexivity]. apply bind_Ok in H2. destruct H2 as (fs & _ & H2). injection H2 as _ <-. discriminate H3.
Qed.

(** Cases. *)
Definition at2 a i j := indexed (Name a) [Name i; Name j].
Definition at1 a i := indexed (Name a) [Name i].
Definition form2 : rexpr := Call [Name "~"; at2 "ability" "p" "m"; at1 "x" "m"].
Definition expr2 : rexpr := Call [Name "-"; at2 "ability" "p1" "m1"; at2 "ability" "p2" "m1"].

Definition bracket (xs : list rexpr) : bool := match xs with Name f :: _ :: _ => String.eqb f "[" | _ => false end.
Fixpoint unnested (b : bool) (x : rexpr) : bool :=
  match x with
  | Const _ | Name _ => true
  | Call xs => (if bracket xs then negb b else true) && forallb (unnested (b || bracket xs)) xs
  end.
Lemma no_nesting_bool x : unnested false x = true -> no_nesting x.
Proof.
  assert (In_true : forall x, unnested true x = true -> forall b args, ~ inside (indexed b args) x).
  { clear x. induction x as [c|s|xs IH] using rexpr_ind'; intros H b args Hi; [inversion Hi|inversion Hi|].
    cbn [unnested] in H. apply andb_true_iff in H. destruct H as [H1 H2]. apply inside_cases in Hi. destruct Hi as [E|(x & Hx & Hi)].
    - injection E as <-. discriminate H1.
    - rewrite Forall_forall in IH. rewrite forallb_forall in H2. exact (IH x Hx (H2 x Hx) b args Hi). }
  induction x as [c|s|xs IH] using rexpr_ind'; intros H a args y Hi Hy b args'; [inversion Hi|inversion Hi|].
  cbn [unnested] in H. apply andb_true_iff in H. destruct H as [H1 H2]. rewrite forallb_forall in H2. apply inside_cases in Hi. destruct Hi as [E|(x & Hx & Hi)].
  - injection E as <-. apply In_true. apply H2. now right.
  - rewrite Forall_forall in IH. specialize (H2 x Hx).
    destruct (bracket xs); cbn [orb] in H2.
    + now elim (In_true x H2 a args).
    + exact (IH x Hx H2 a args y Hi Hy b args').
Qed.

Lemma C67_gaps_main : exists subvar subform subexpr data idx names cols ids j t t', find_indices_subform subvar subform subexpr data = Ok (data, idx) /\
  (forall s, In s (map fst idx) -> lookup data s = None) /\ no_nesting subform /\
  inside (indexed (Name subvar) (map Name names)) subexpr /\ Forall2 (fun s x => lookup data s = Some x) names cols /\
  Forall2 (fun x v => as_numeric x = map Some v /\ length v = 2%nat) cols ids /\ (j < 2)%nat /\ Forall2 (fun x l => label_at x j = Some l) cols t /\
  nth_error (expand_grid (map (fun ni => labels (snd ni)) idx)) (Z.to_nat (nth j (flatten_vars ids (map (fun ni => index_length (snd ni)) idx)) 0 - 1)) = Some t' /\ t' <> t.
Proof.
  exists "ability", form2, (at2 "ability" "p1" "m1"), [("p1", Num [1; 3] []); ("m1", Num [2; 1] [])], [("p", Numbers [1; 2]); ("m", Numbers [1; 2])],
    ["p1"; "m1"], [Num [1; 3] []; Num [2; 1] []], [[1; 3]; [2; 1]], 1%nat, [Number 3; Number 1], [Number 1; Number 2].
  split; [reflexivity|]. split; [intros s [<-|[<-|[]]]; reflexivity|]. split; [apply no_nesting_bool; reflexivity|]. split; [apply inside_here|].
  split; [repeat constructor|]. split; [repeat constructor|]. split; [lia|]. split; [repeat constructor|]. split; [reflexivity|]. discriminate.
Qed.

Lemma C67_stale_main : exists subvar subform subexpr data data' idx names cols ids j t t', find_indices_subform subvar subform subexpr data = Ok (data', idx) /\
  no_nesting subform /\
  inside (indexed (Name subvar) (map Name names)) subexpr /\ Forall2 (fun s x => lookup data' s = Some x) names cols /\
  Forall2 (fun x v => as_numeric x = map Some v /\ length v = 2%nat) cols ids /\ (j < 2)%nat /\ Forall2 (fun x l => label_at x j = Some l) cols t /\
  nth_error (expand_grid (map (fun ni => labels (snd ni)) idx)) (Z.to_nat (nth j (flatten_vars ids (map (fun ni => index_length (snd ni)) idx)) 0 - 1)) = Some t' /\ t' <> t.
Proof.
  exists "ability", form2, (at2 "ability" "p1" "m1"), [("p1", Fac [Some 1; Some 2] ["a"; "b"]); ("m1", Num [4; 9] []); ("m", Num [9; 4] [])],
    [("p1", Fac [Some 1; Some 2] ["a"; "b"]); ("m1", Fac [Some 2; Some 1] ["9"; "4"]); ("m", Num [9; 4] [])], [("p", Levels ["a"; "b"]); ("m", Levels ["a"; "b"])],
    ["p1"; "m1"], [Fac [Some 1; Some 2] ["a"; "b"]; Fac [Some 2; Some 1] ["9"; "4"]], [[1; 2]; [2; 1]], 1%nat, [Level "b"; Level "9"], [Level "b"; Level "a"].
  split; [reflexivity|]. split; [apply no_nesting_bool; reflexivity|]. split; [apply inside_here|].
  split; [repeat constructor|]. split; [repeat constructor|]. split; [lia|]. split; [repeat constructor|]. split; [reflexivity|]. discriminate.
Qed.

Lemma C67_short_main : exists subvar subform subexpr data idx ind ix x n, find_indices_subform subvar subform subexpr data = Ok (data, idx) /\
  (forall s, In s (map fst idx) -> lookup data s = None) /\ no_nesting subform /\
  idx = [(ind, ix)] /\ covariate subform data 0 ind x /\ extent 0 x n /\ n < index_length ix.
Proof.
  exists "ability", (Call [Name "~"; at1 "ability" "p"; Call [Name "+"; at1 "x" "p"; at1 "y" "p"]]), (at1 "ability" "p1"),
    [("p1", Fac [Some 1; Some 2; Some 3] ["a"; "b"; "c"]); ("x", Num [5; 7] []); ("y", Num [0; 1; 0] [])], [("p", Levels ["a"; "b"; "c"])], "p", (Levels ["a"; "b"; "c"]), (Num [5; 7] []), 2.
  split; [reflexivity|]. split; [intros s [<-|[]]; reflexivity|]. split; [apply no_nesting_bool; reflexivity|]. split; [reflexivity|].
  split.
  - exists (Name "x"), [Name "p"], "x". split; [|split; [reflexivity|split; [now left|reflexivity]]].
    eapply inside_call; [right; right; left; reflexivity|]. eapply inside_call; [right; left; reflexivity|]. apply inside_here.
  - split; reflexivity.
Qed.

Definition data2 : rdata :=
  [("p1", Fac [Some 1; Some 2; Some 1] ["a"; "b"; "c"]); ("p2", Fac [Some 3; Some 1; Some 2] ["a"; "b"; "c"]); ("m1", Num [2; 1; 2] []); ("x", Num [5; 7] [])].
Lemma expr2_args args : inside (indexed (Name "ability") args) expr2 -> args = [Name "p1"; Name "m1"] \/ args = [Name "p2"; Name "m1"].
Proof.
  intros H. apply inside_cases in H. destruct H as [E|(x & Hx & H)]; [discriminate E|].
  destruct Hx as [<-|[<-|[<-|[]]]]; [inversion H| |]; apply inside_cases in H; (destruct H as [E|(x & Hx & H)]; [injection E as <-; auto|]);
    exfalso; repeat (destruct Hx as [<-|Hx]; [inversion H|]); contradiction.
Qed.
Lemma C67_case_main : let idx := [("p", Levels ["a"; "b"; "c"]); ("m", Numbers [1; 2])] in
  find_indices_subform "ability" form2 expr2 data2 = Ok (data2, idx) /\ (forall s, In s (map fst idx) -> lookup data2 s = None) /\
  no_nesting form2 /\ numbers_ok "ability" form2 expr2 data2 (map fst idx) /\ inside (at2 "ability" "p2" "m1") expr2 /\
  flatten_vars [[3; 1; 2]; [2; 1; 2]] [3; 2] = [6; 1; 5] /\ nth_error (expand_grid (map (fun ni => labels (snd ni)) idx)) 4 = Some [Level "b"; Number 2].
Proof.
  cbv zeta. split; [reflexivity|]. split; [intros s [<-|[<-|[]]]; reflexivity|]. split; [apply no_nesting_bool; reflexivity|]. split.
  - intros i ind z Ei (args & s & v & dims & Hin & Es & El & Hz).
    assert (E : i = 1%nat /\ s = "m1").
    { destruct (expr2_args args Hin) as [->| ->]; destruct i as [|[|[|i]]]; try discriminate; injection Es as <-; auto; discriminate El. }
    destruct E as [-> ->]. injection El as <- <-. injection Ei as <-.
    split; [|split].
    + destruct Hz as [<-|[<-|[<-|[]]]]; lia.
    + intros x n (a & args' & s' & Hin' & Ea & Hn & Hl) _. exfalso.
      apply inside_cases in Hin'. destruct Hin' as [E|(y & Hy & H)]; [discriminate E|].
      destruct Hy as [<-|[<-|[<-|[]]]]; [inversion H| |]; apply inside_cases in H; (destruct H as [E|(y & Hy & H)]; [injection E as -> ->|]);
        try (repeat (destruct Hy as [<-|Hy]; [inversion H|]); contradiction).
      * destruct Hn as [[= <-]|(xs & [=] & _)]. discriminate Hl.
      * discriminate Ea.
    + intros _ y Hy. exists [Name "p1"; Name "m1"], "m1", [2; 1; 2], []. split; [eapply inside_call; [right; left; reflexivity|apply inside_here]|].
      split; [reflexivity|]. split; [reflexivity|]. assert (y = 1 \/ y = 2) as [->| ->] by (destruct Hz as [<-|[<-|[<-|[]]]]; lia); cbn; auto.
  - split; [eapply inside_call; [right; right; left; reflexivity|apply inside_here]|]. split; reflexivity.
Qed.

Lemma C67_position_main : exists subvar subform subexpr data idx s v z ind ix x n, find_indices_subform subvar subform subexpr data = Ok (data, idx) /\
  (forall s, In s (map fst idx) -> lookup data s = None) /\ no_nesting subform /\
  nth_error idx 1 = Some (ind, ix) /\ covariate subform data 0 ind x /\ extent 0 x n /\
  inside (indexed (Name subvar) [Name "p1"; Name s]) subexpr /\ lookup data s = Some (Num v []) /\ In z v /\ 1 <= z <= n /\ ~ In (Number z) (labels ix).
Proof.
  exists "ability", form2, (at2 "ability" "p1" "m1"), [("p1", Num [1; 2] []); ("m1", Num [3; 1] []); ("x", Num [5; 7; 8] [])], [("p", Numbers [1; 2]); ("m", Numbers [1; 2])],
    "m1", [3; 1], 3, "m", (Numbers [1; 2]), (Num [5; 7; 8] []), 3.
  split; [reflexivity|]. split; [intros s [<-|[<-|[]]]; reflexivity|]. split; [apply no_nesting_bool; reflexivity|]. split; [reflexivity|].
  split.
  - exists (Name "x"), [Name "m"], "x". split; [|split; [reflexivity|split; [now left|reflexivity]]].
    eapply inside_call; [right; right; left; reflexivity|]. apply inside_here.
  - split; [reflexivity|]. split; [apply inside_here|]. split; [reflexivity|]. split; [now left|]. split; [lia|]. cbn. intuition discriminate.
Qed.
