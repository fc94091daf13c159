(** computeLogNormalizingConstant with the state it really has: the factors are
    held by shared_ptr (inst/include/ContinuousBelief.h:45), so all copies of a
    cluster graph share one GLMMBelief object per factor, and evaluating a
    GLMMBelief changes that object.  Everything else is copied by value.

    The functions of Model/Mixed.v and Model/ClusterGraph.v that evaluate factors
    are written again here in a state monad over the GLMMBelief objects; those
    that do not are used as they are. *)
From Coq Require Import List ZArith Bool.
From Verif Require Import Model.Base Model.Items Model.Graph Model.Family Model.GLMM Model.Mixed
  Model.ClusterGraph.
Import ListNotations.

Section Stateful.
Context (F : num).

(** A computation over a heap of caches, one for each GLMM factor.  The heap
    survives exceptions. *)
Definition heap := list (cache F).
Definition M (A : Type) := heap -> outcome A * heap.
Definition mret {A} (a : A) : M A := fun h => (Ok a, h).
Definition mlift {A} (o : outcome A) : M A := fun h => (o, h).
Definition mbind {A B} (m : M A) (f : A -> M B) : M B := fun h =>
  let '(o, h') := m h in
  match o with
  | Ok a => f a h'
  | Throw e => (Throw e, h')
  | UB => (UB, h')
  | NoFuel => (NoFuel, h')
  end.
Local Notation "x <~ m ;; k" := (mbind m (fun x => k)) (at level 61, m at next level, right associativity).

Fixpoint mfoldM {A T} (f : T -> A -> M T) (l : list A) (s : T) : M T :=
  match l with
  | [] => mret s
  | x :: l' => s' <~ f s x ;; mfoldM f l' s'
  end.

(** What the factors are made of, apart from the GLMM factors: the multivariate
    normals, the stored sparse-grid beliefs (SparseBelief; also NormalBelief used
    as a factor), which have no mutable state, and the construction of a stored
    belief.  The latter gets at the factors only through the three callbacks it
    is given, so it is a program of calls to them
    (src/MixedContinuousBelief.cpp:65-102). *)
Inductive iprog (St : Type) : Type :=
| IRet (s : St)
| IThrow (e : exn)
| IUB
| IEval (x : list F) (k : F -> iprog St)
| IDeriv (x : list F) (k : list F -> iprog St)
| IDeriv2 (x : list F) (k : list (list F) -> iprog St).

Record parts := mkParts {
  P_isnormal : F -> bool;
  P_St : Type;
  P_scope : P_St -> list Z;
  P_eval : P_St -> list F -> F;
  P_deriv : P_St -> list F -> list F;
  P_deriv2 : P_St -> list F -> list (list F);
  P_MN : Type;
  P_given : list F -> list (list F) -> P_MN;
  P_mul : P_MN -> P_MN -> list nat -> P_MN;
  P_div : P_MN -> P_MN -> list nat -> P_MN;
  P_marginal : P_MN -> list nat -> P_MN;
  P_mean : P_MN -> list F;
  P_mneval : P_MN -> list F -> F;
  P_integral : nat -> P_MN -> list Z -> iprog P_St
}.

(** A factor: a pointer to a GLMM object, or a stored belief. *)
Inductive factor (P : parts) := Shared (n : nat) | Stored (s : P_St P).
Arguments Shared {P}. Arguments Stored {P}.

Context (datas : list (glmm_data F)) (par : params F) (P : parts).

(** Calls through the pointers, src/ContinuousBelief.cpp:66-84. *)
Definition on_object {A} (n : nat) (f : glmm_data F -> cache F -> outcome (A * cache F)) : M A :=
  fun h =>
    match nth_error datas n, nth_error h n with
    | Some d, Some c =>
        match f d c with
        | Ok (a, c') => (Ok a, upd h n c')
        | Throw e => (Throw e, h)
        | UB => (UB, h)
        | NoFuel => (NoFuel, h)
        end
    | _, _ => (UB, h)
    end.
Definition s_beval (b : factor P) (x : list F) : M F :=
  match b with
  | Shared n => on_object n (fun d c => glmm_evaluate F d c x par)
  | Stored s => mret (P_eval P s x)
  end.
Definition s_bderiv (b : factor P) (x : list F) : M (list F) :=
  match b with
  | Shared n => on_object n (fun d c => glmm_evaluateDerivative F d c x par)
  | Stored s => mret (P_deriv P s x)
  end.
Definition s_bderiv2 (b : factor P) (x : list F) : M (list (list F)) :=
  match b with
  | Shared n => on_object n (fun d c => glmm_evaluateSecondDerivative F d c x par)
  | Stored s => mret (P_deriv2 P s x)
  end.

(** The same factors without memory: every call starts from a fresh object.
    Used to compare with Model/Mixed.v, where factors are functions. *)
Definition fresh {A} (n : nat) (f : glmm_data F -> cache F -> outcome (A * cache F)) : outcome A :=
  d <- vec_get datas n ;; c <- glmm_new F d ;; r <- f d c ;; Ok (fst r).
Definition value {A} (default : A) (o : outcome A) : A :=
  match o with Ok a => a | _ => default end.
Fixpoint run_integral (ev : list F -> outcome F) (de : list F -> outcome (list F))
         (de2 : list F -> outcome (list (list F))) (p : iprog (P_St P)) : outcome (factor P) :=
  match p with
  | IRet _ s => Ok (Stored s)
  | IThrow _ e => Throw e
  | IUB _ => UB
  | IEval _ x k => v <- ev x ;; run_integral ev de de2 (k v)
  | IDeriv _ x k => v <- de x ;; run_integral ev de de2 (k v)
  | IDeriv2 _ x k => v <- de2 x ;; run_integral ev de de2 (k v)
  end.
Definition pure_sig : sig :=
  mkSig F (nZ F 0) (nadd F) (nsub F) (nopp F) (P_isnormal P)
    (factor P)
    (fun b => match b with Shared n => gd_items F (nth n datas (mkData F [] [] 0 [] 0 (mkSparse F 0 []) [] [] []))
                         | Stored s => P_scope P s end)
    (fun b x => match b with
       | Shared n => value (nZ F 0) (fresh n (fun d c => glmm_evaluate F d c x par))
       | Stored s => P_eval P s x end)
    (fun b x => match b with
       | Shared n => value [] (fresh n (fun d c => glmm_evaluateDerivative F d c x par))
       | Stored s => P_deriv P s x end)
    (fun b x => match b with
       | Shared n => value [] (fresh n (fun d c => glmm_evaluateSecondDerivative F d c x par))
       | Stored s => P_deriv2 P s x end)
    (P_MN P) (P_given P) (P_mul P) (P_div P) (P_marginal P) (P_mean P) (P_mneval P)
    (fun ev de de2 i mn items => run_integral ev de de2 (P_integral P i mn items)).
Local Notation S := pure_sig.

(** src/MixedContinuousBelief.cpp:176-191. *)
Fixpoint s_eval_loop (m : mixed S) (x : list F) (bs : list (B S)) (index : nat) (ret : F) : M F :=
  match bs with
  | [] => mret ret
  | b :: bs' =>
      rel <~ mlift (vec_at (m_rel m) index) ;;
      xs <~ mlift (@findSubset S x rel) ;;
      value <~ s_beval b xs ;;
      inv <~ mlift (vec_at (m_inv m) index) ;;
      s_eval_loop m x bs' (index + 1) (if inv : bool then nsub F ret value else nadd F ret value)
  end.
Definition s_evaluate (m : mixed S) (x : list F) : M F :=
  s_eval_loop m x (m_beliefs m) 0 (nZ F 0).

(** src/MixedContinuousBelief.cpp:193-209. *)
Fixpoint s_deriv_loop (m : mixed S) (x : list F) (bs : list (B S)) (index : nat)
         (ret : list F) : M (list F) :=
  match bs with
  | [] => mret ret
  | b :: bs' =>
      let rel := findRelativeItems (bscope S b) (m_items m) in
      xs <~ mlift (@findSubset S x rel) ;;
      d <~ s_bderiv b xs ;;
      inv <~ mlift (vec_at (m_inv m) index) ;;
      ret' <~ mlift (@addVectorSubset S ret rel (if inv : bool then map (nopp F) d else d)) ;;
      s_deriv_loop m x bs' (index + 1) ret'
  end.
Definition s_evaluateDerivative (m : mixed S) (x : list F) : M (list F) :=
  s_deriv_loop m x (m_beliefs m) 0 (repeat (nZ F 0) (length x)).

(** src/MixedContinuousBelief.cpp:211-227. *)
Fixpoint s_deriv2_loop (m : mixed S) (x : list F) (bs : list (B S)) (index : nat)
         (ret : list (list F)) : M (list (list F)) :=
  match bs with
  | [] => mret ret
  | b :: bs' =>
      let rel := findRelativeItems (bscope S b) (m_items m) in
      xs <~ mlift (@findSubset S x rel) ;;
      d <~ s_bderiv2 b xs ;;
      inv <~ mlift (vec_at (m_inv m) index) ;;
      ret' <~ mlift (@addMatrixSubset S ret rel (if inv : bool then map (map (nopp F)) d else d)) ;;
      s_deriv2_loop m x bs' (index + 1) ret'
  end.
Definition s_evaluateSecondDerivative (m : mixed S) (x : list F) : M (list (list F)) :=
  s_deriv2_loop m x (m_beliefs m) 0 (repeat (repeat (nZ F 0) (length x)) (length x)).

(** src/MixedContinuousBelief.cpp:59-107. *)
Fixpoint s_run_integral (m : mixed S) (p : iprog (P_St P)) : M (factor P) :=
  match p with
  | IRet _ s => mret (Stored s)
  | IThrow _ e => mlift (Throw e)
  | IUB _ => mlift UB
  | IEval _ x k => v <~ s_evaluate m x ;; s_run_integral m (k v)
  | IDeriv _ x k => v <~ s_evaluateDerivative m x ;; s_run_integral m (k v)
  | IDeriv2 _ x k => v <~ s_evaluateSecondDerivative m x ;; s_run_integral m (k v)
  end.
Definition s_integrate (m : mixed S) (item : Z) : M (mixed S) :=
  let relativeItem := findRelativeItem item (m_items m) in
  let remainingItems := erase (m_items m) relativeItem in
  belief <~ s_run_integral m (P_integral P relativeItem (n_normal (m_normal m)) remainingItems) ;;
  mret (setNormal (@mixed_of_belief S belief) (n_margin (m_normal m) remainingItems)).

(** src/MixedContinuousBelief.cpp:109-132. *)
Definition s_margin (m : mixed S) (items : list Z) (normalApproxOnly : bool) : M (mixed S) :=
  if normalApproxOnly then
    mret (setNormal (mixed_of_items items) (n_margin (m_normal m) items))
  else
    mfoldM s_integrate (findItemsDifference (m_items m) items) m.

(** src/MixedContinuousBelief.cpp:134-141. *)
Definition s_mixed_logNormalizingConstant (m : mixed S) : M F :=
  beliefEmpty <~ s_margin m [] false ;;
  s_evaluate beliefEmpty [].

(** src/MixedContinuousBelief.cpp:229-246. *)
Definition s_isProper (m : mixed S) : M bool :=
  let normalMean := mn_mean S (n_normal (m_normal m)) in
  p1 <~ (if (0 <? length (m_beliefs m))%nat
         then evalAtMean <~ s_evaluate m normalMean ;; mret (d_isnormal S evalAtMean)
         else mret true) ;;
  mret (p1 && d_isnormal S (n_eval (m_normal m) normalMean)).

(** src/ClusterGraph.cpp:291-298. *)
Definition s_project (cluster : mixed S) (e : edge S) (normalApproxOnly : bool) : M (edge S) :=
  b <~ s_margin cluster (m_items (e_belief e)) normalApproxOnly ;;
  mret (mkEdge (e_first e) (e_second e) b).

(** src/ClusterGraph.cpp:134-157. *)
Definition s_passMessage (cg : cgraph S) (k : nat) (forward normalApproxOnly : bool) : M (cgraph S) :=
  e <~ mlift (vec_get (cg_edges cg) k) ;;
  let i := if forward then e_first e else e_second e in
  let j := if forward then e_second e else e_first e in
  let oldEdgeBelief := e_belief e in
  ci <~ mlift (zat (cg_clusters cg) i) ;;
  e' <~ s_project ci e normalApproxOnly ;;
  cj <~ mlift (zat (cg_clusters cg) j) ;;
  let cj' := mixed_div (mixed_mul cj (e_belief e')) oldEdgeBelief in
  proper <~ s_isProper cj' ;;
  if proper : bool then
    mret (mkCG (upd (cg_clusters cg) (Z.to_nat j) cj') (upd (cg_edges cg) k e') (cg_calibrated cg))
  else mlift (Throw RuntimeError).

(** src/ClusterGraph.cpp:122-131. *)
Definition s_calibrateInternal (cg : cgraph S) (forward normalApproxOnly : bool) : M (cgraph S) :=
  let ids := seq 0 (length (cg_edges cg)) in
  mfoldM (fun c k => s_passMessage c k forward normalApproxOnly)
         (if forward then ids else rev ids) cg.

(** src/ClusterGraph.cpp:47-72. *)
Definition s_setNormalApprox (cg : cgraph S) (mean : list F) (precision : Z -> Z -> F) : M (cgraph S) :=
  clusters <~ mlift (mapM (fun c =>
                mu <- @getVectorSubset S mean (m_items c) ;;
                Ok (setNormalApprox c mu (@getSparseMatrixSubset S precision (m_items c))))
              (cg_clusters cg)) ;;
  edges <~ mlift (mapM (fun e =>
                mu <- @getVectorSubset S mean (m_items (e_belief e)) ;;
                Ok (mkEdge (e_first e) (e_second e)
                     (setNormalApprox (e_belief e) mu
                        (@getSparseMatrixSubset S precision (m_items (e_belief e))))))
              (cg_edges cg)) ;;
  cg1 <~ s_calibrateInternal (mkCG clusters edges (cg_calibrated cg)) true true ;;
  cg2 <~ s_calibrateInternal cg1 false true ;;
  mret (mkCG (map fixNormalApprox (cg_clusters cg2))
           (map (fun e => mkEdge (e_first e) (e_second e) (fixNormalApprox (e_belief e)))
                (cg_edges cg2))
           (cg_calibrated cg2)).

(** src/ClusterGraph.cpp:99-103. *)
Definition s_logNormalizingConstant (cg : cgraph S) : M F :=
  finalBelief <~ mlift (zat (cg_clusters cg) (Z.of_nat (length (cg_clusters cg)) - 1)) ;;
  s_mixed_logNormalizingConstant finalBelief.

(** src/ClusterGraph.cpp:327-338. *)
Definition s_computeLogNormalizingConstant (cg : cgraph S) (mean : list F)
           (precision : Z -> Z -> F) : M F :=
  cg1 <~ s_setNormalApprox cg mean precision ;;
  cg2 <~ s_calibrateInternal cg1 true false ;;
  s_logNormalizingConstant cg2.
End Stateful.

Arguments Shared {F P}. Arguments Stored {F P}.

(** A session: calls of computeLogNormalizingConstant one after another, each
    with its own cluster graph, mean, precision, parameters (and, as the basis
    and the quadrature rule are parameters, its own [parts]). *)
Record call (F : num) (datas : list (glmm_data F)) := mkCall {
  call_par : params F;
  call_parts : parts F;
  call_cg : cgraph (pure_sig F datas call_par call_parts);
  call_mean : list F;
  call_prec : Z -> Z -> F
}.
Definition run_call (F : num) (datas : list (glmm_data F)) (c : call F datas) : M F F :=
  s_computeLogNormalizingConstant F datas (call_par _ _ c) (call_parts _ _ c)
    (call_cg _ _ c) (call_mean _ _ c) (call_prec _ _ c).
Definition run_session (F : num) (datas : list (glmm_data F)) (cs : list (call F datas)) (h : heap F)
  : heap F :=
  fold_left (fun h c => snd (run_call F datas c h)) cs h.

(** The objects as constructed. *)
Definition new_heap (F : num) (datas : list (glmm_data F)) : outcome (heap F) :=
  mapM (glmm_new F) datas.
