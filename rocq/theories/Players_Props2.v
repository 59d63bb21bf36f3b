(** C76: the players of both games hand their own colour and the present board to the module. *)
From Coq Require Import Reals.
From Verif Require Import Base Games_Model Games_Spec Games_Proofs Capture_Model Capture_Spec Duel_Model Duel_Spec Functions_Model LinearFA_Model
  Players_Model Players_Spec Players_Proofs Players_Proofs2 Players_Proofs3 Players_Proofs4 Players_Props.
Local Open Scope R_scope.

(** The greedy player of the capture game takes, with equal chances, one of the empty points which the module, shown the board from the player's side, rates highest. *)
Theorem C76_capture_module n module T g c r : (1 <= n)%Z -> fitting n (module (moduleInput (square n) (c_b g) c)) -> (exists p, free (square n) (c_b g) p) ->
  equal_chances (fun p => free (square n) (c_b g) p /\ forall q, free (square n) (c_b g) q ->
      nth (number (square n) q) (module (moduleInput (square n) (c_b g) c)) 0 <= nth (number (square n) p) (module (moduleInput (square n) (c_b g) c)) 0)
    (moduleCapture n module (temperatureOf true T) g c r).
Proof. intros. apply C76_greedy; assumption. Qed.
Print Assumptions C76_capture_module.
(** So does the player of Gomoku on a square board. *)
Theorem C76_gomoku_module n module T b c r : (1 <= n)%Z -> fitting n (module (moduleInput (square n) b c)) -> (exists p, free (square n) b p) ->
  equal_chances (fun p => free (square n) b p /\ forall q, free (square n) b q ->
      nth (number (square n) q) (module (moduleInput (square n) b c)) 0 <= nth (number (square n) p) (module (moduleInput (square n) b c)) 0)
    (moduleGomoku (square n) module (temperatureOf true T) b c r).
Proof. intros. apply C76_greedy; assumption. Qed.
Print Assumptions C76_gomoku_module.
