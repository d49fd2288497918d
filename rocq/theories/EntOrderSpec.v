(** Specification of the order in a schedule (C41). *)
From Coq Require Import QArith.
From Verif Require Import LinAlg Base.
Local Open Scope list_scope.
Local Open Scope nat_scope.

(** The error of a pair of qubits: the last one listed for the pair in this order, or
    else the first one in the other order. *)
Definition reported (gates : list (list nat * Q)) (c p : nat) : option Q :=
  match find (fun g => eqb (fst g) [c; p]) (rev gates) with
  | Some g => Some (snd g)
  | None => match find (fun g => eqb (fst g) [p; c]) gates with Some g => Some (snd g) | None => None end
  end.
(** A child is not farther than another: its error is not larger. *)
Definition nearer (gates : list (list nat * Q)) (p a b : nat) : Prop :=
  forall ea eb, reported gates a p = Some ea -> reported gates b p = Some eb -> (ea <= eb)%Q.
