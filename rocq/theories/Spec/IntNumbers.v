(** Integers in place of doubles, to run examples of the stateful model. *)
From Coq Require Import List ZArith Bool.
From Verif Require Import Model.Base Model.Family Model.GLMM Model.Mixed Model.ClusterGraph Model.Stateful.
Import ListNotations.
Local Open Scope Z_scope.

Definition Znum : num :=
  mkNum Z (fun z => z) (-1000) Z.add Z.sub Z.mul Z.div Z.opp Z.ltb Z.eqb (fun z => z * z + 1) (fun z => z)
        Z.pow (fun z => 2 * z + 1) (fun z => z).

(** Stored beliefs: a scope and a constant.  Integrating out a variable evaluates
    at 1, 2, ... and remembers the value. *)
Definition Zparts : parts Znum :=
  mkParts Znum (fun _ => true) (list Z * Z) fst (fun s _ => snd s) (fun _ x => x) (fun _ x => [x])
    unit (fun _ _ => tt) (fun a _ _ => a) (fun a _ _ => a) (fun a _ => a) (fun _ => [1; 2; 3]) (fun _ _ => 1)
    (fun _ _ items => IEval Znum _ (map Z.of_nat (seq 1 (S (length items)))) (fun v => IRet Znum _ (items, v))).

(** Two factors with overlapping items. *)
Definition zdata (items : list Z) (Zt : list (list Z)) : glmm_data Znum :=
  mkData Znum items [[1]; [2]] 1 Zt 2 (mkSparse Znum 2 [[(0%nat, 1)]; [(1%nat, 1)]]) [0; 0] [1; 0] [1; 3].
Definition zdatas : list (glmm_data Znum) := [zdata [0; 1] [[1; 0]; [0; 1]]; zdata [1; 2] [[2; 1]; [1; 1]]].

Definition zpar (theta beta : Z) : params Znum := mkParams Znum [theta] [beta] (mkFamily Probit Binomial).
Definition zcall (theta beta : Z) : outcome (call Znum zdatas) :=
  let S := pure_sig Znum zdatas (zpar theta beta) Zparts in
  cg <- makeClusterGraph (S := S) (map (@mixed_of_belief S) [Shared 0; Shared 1]) ;;
  Ok (mkCall Znum zdatas (zpar theta beta) Zparts cg [0; 0; 0] (fun _ _ => 0)).
