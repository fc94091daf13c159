(** C37, C38: splitting the model frame into factors. *)
From Coq Require Import List ZArith Reals Permutation.
From Verif Require Import Model.Base Model.Family Model.GLMM Model.SplitFrame Spec.Numbers Spec.FamilySpec Spec.GLMMSpec Spec.SplitSpec
  Proofs.SplitLemmas Proofs.SplitMain Proofs.SplitCases.
Import ListNotations.
Local Open Scope R_scope.

(** C37: if the allocation succeeds, every observation is given to exactly one
    clique, which contains its active set; it fails, with an error, exactly if
    the active set of some observation is in no clique. *)
Theorem C37_allocation : forall cliques act obs, NoDup obs ->
  (forall ext, add_obs cliques act obs = Ok ext ->
     map fst ext = cliques /\ Permutation (concat (map snd ext)) obs /\
     (forall C os o, In (C, os) ext -> In o os -> incl (nth (o - 1) act []) C)) /\
  ((exists ext, add_obs cliques act obs = Ok ext) <->
   (forall o, In o obs -> exists C, In C cliques /\ incl (nth (o - 1) act []) C)) /\
  ((exists ext, add_obs cliques act obs = Ok ext) \/ add_obs cliques act obs = Throw RuntimeError).
Proof. exact add_obs_spec. Qed.
Print Assumptions C37_allocation.

(** If every observation has a random effect, the factors are made, and together
    they are the log-likelihood of all the observations at every value of the
    parameters and of the random effects; there is one standard normal factor for
    each random effect. *)
Theorem C37_terms : forall fr, regular fr -> no_empty fr -> (1 <= length (cs_cols (fr_Zt _ fr)))%nat ->
  exists ds, find_factorization_terms Rnum fr =
    Ok (map (GLMMTerm Rnum) ds ++ map (fun i => NormalTerm Rnum [Z.of_nat i] [0] [[1]]) (seq 0 (cs_rows (fr_Zt _ fr)))) /\
  (forall d, In d ds -> shaped d /\ gd_numFixed _ d = fr_numFixed _ fr /\ NoDup (gd_items _ d) /\ gd_items _ d <> [] /\
     (forall i, In i (gd_items _ d) -> (0 <= i < Z.of_nat (cs_rows (fr_Zt _ fr)))%Z) /\
     forall m, (forall l, In l (fr_Lind _ fr) -> (1 <= l <= Z.of_nat m)%Z) -> in_range m (gd_Lind _ d)) /\
  forall P beta theta u, length u = cs_rows (fr_Zt _ fr) ->
    fold_right Rplus 0 (map (fun d => factor_loglik P d beta theta (restrict u (gd_items _ d))) ds) = factor_loglik P (whole fr) beta theta u.
Proof. exact C37_terms_main. Qed.
Print Assumptions C37_terms.

(** Whether the split fails depends only on whether there is any random effect at all. *)
Theorem C37_fails : forall fr, regular fr -> (1 <= length (cs_cols (fr_Zt _ fr)))%nat ->
  ((exists o r, (o < length (cs_cols (fr_Zt _ fr)))%nat /\ depends (fr_Lambdat _ fr) (fr_Zt _ fr) o r) ->
     exists ts, find_factorization_terms Rnum fr = Ok ts) /\
  ((forall o r, (o < length (cs_cols (fr_Zt _ fr)))%nat -> ~ depends (fr_Lambdat _ fr) (fr_Zt _ fr) o r) ->
     find_factorization_terms Rnum fr = Throw RuntimeError).
Proof. exact C37_fails_main. Qed.
Print Assumptions C37_fails.

(** The scopes of the likelihood factors are exactly the sets of random effects on which
    the observations depend. *)
Theorem C37_scopes : forall fr, regular fr -> (1 <= length (cs_cols (fr_Zt _ fr)))%nat ->
  forall ts, find_factorization_terms Rnum fr = Ok ts ->
  (forall d, In (GLMMTerm Rnum d) ts -> exists o, (o < length (cs_cols (fr_Zt _ fr)))%nat /\
     forall i, In i (gd_items _ d) <-> exists r, i = Z.of_nat r /\ depends (fr_Lambdat _ fr) (fr_Zt _ fr) o r) /\
  (forall o r0, (o < length (cs_cols (fr_Zt _ fr)))%nat -> depends (fr_Lambdat _ fr) (fr_Zt _ fr) o r0 ->
     exists d, In (GLMMTerm Rnum d) ts /\
     forall i, In i (gd_items _ d) <-> exists r, i = Z.of_nat r /\ depends (fr_Lambdat _ fr) (fr_Zt _ fr) o r).
Proof. exact C37_scopes_main. Qed.
Print Assumptions C37_scopes.

Example C37_case : regular (slopes [(0%nat, 2)]) /\ no_empty (slopes [(0%nat, 2)]) /\
  (exists d1 d2, find_factorization_terms Rnum (slopes [(0%nat, 2)]) =
     Ok [GLMMTerm Rnum d1; GLMMTerm Rnum d2; NormalTerm Rnum [0%Z] [0] [[1]]; NormalTerm Rnum [1%Z] [0] [[1]]] /\
     gd_items _ d1 = [0%Z] /\ gd_numObs _ d1 = 2%nat /\ gd_items _ d2 = [1%Z] /\ gd_numObs _ d2 = 1%nat).
Proof. exact slopes_case. Qed.

(** C38: the active sets are those of the observations, in order, without the empty
    ones. *)
Theorem C38_positions : forall A (Lam Z : csc A), exists full, length full = length (cs_cols Z) /\
  (forall o r, (o < length (cs_cols Z))%nat -> (r < cs_rows Lam)%nat -> (In (r + 1)%nat (nth o full []) <-> depends Lam Z o r)) /\
  (forall s, In s full -> forall i, In i s -> (1 <= i <= cs_rows Lam)%nat) /\
  find_active Lam Z = filter (fun s => match s with [] => false | _ => true end) full.
Proof. exact @C38_positions_main. Qed.
Print Assumptions C38_positions.

(** So one observation without a random effect is enough to make the factors
    independent of all the random effects, while the likelihood is not. *)
Theorem C38_shift_refuted : exists fr, regular fr /\ (1 <= length (cs_cols (fr_Zt _ fr)))%nat /\
  (forall o, (1 <= o < length (cs_cols (fr_Zt _ fr)))%nat -> exists r, depends (fr_Lambdat _ fr) (fr_Zt _ fr) o r) /\
  exists ds, find_factorization_terms Rnum fr =
    Ok (map (GLMMTerm Rnum) ds ++ map (fun i => NormalTerm Rnum [Z.of_nat i] [0] [[1]]) (seq 0 (cs_rows (fr_Zt _ fr)))) /\
  (forall u v, map (fun d => factor_loglik logistic d [0] [1] (restrict u (gd_items _ d))) ds =
               map (fun d => factor_loglik logistic d [0] [1] (restrict v (gd_items _ d))) ds) /\
  factor_loglik logistic (whole fr) [0] [1] [1; 1] <> factor_loglik logistic (whole fr) [0] [1] [0; 0].
Proof. exact C38_shift_main. Qed.
Print Assumptions C38_shift_refuted.
