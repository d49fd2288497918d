(** Independent meaning of the bookkeeping of accreditation (C39). *)
From Coq Require Import QArith Reals.
From Verif Require Import Base LinAlg QSem AccSpec AccModel.
Open Scope nat_scope.

(** A call of [single_protocol_run]: the results, the pads and the position of
    the target. *)
Record call := { c_counts : nat -> result (list (pystr * Z)); c_postp : list (list bool); c_vzero : nat }.

(** Single-shot data: one key with one count per circuit, of as many 0s and 1s as
    the pad; the position of the target exists. *)
Record single_shot (c : call) (keys : list bits) : Prop := {
  ss_len : length keys = length (c_postp c);
  ss_v : c_vzero c < length (c_postp c);
  ss_counts : forall k key, nth_error keys k = Some key -> c_counts c k = Ok [(key_of key, 1%Z)];
  ss_bits : forall k key p, nth_error keys k = Some key -> nth_error (c_postp c) k = Some p -> length key = length p
}.
(** The pad of qubit q is entry q of the reversed string. *)
Definition pad (p : list bool) : bits := rev p.
(** All the traps were found in the state of their pads, that is, returned zeros
    once corrected. *)
Definition traps_zero (c : call) (keys : list bits) : Prop :=
  forall k key p, k <> c_vzero c -> nth_error keys k = Some key -> nth_error (c_postp c) k = Some p -> key = pad p.
(** The corrected outcome of the target. *)
Definition target_outcome (c : call) (keys : list bits) : pystr :=
  key_of (xors (nth (c_vzero c) keys []) (pad (nth (c_vzero c) (c_postp c) []))).

(** What can be done with a fitter, and its history; an exception leaves the
    state reached so far. *)
Inductive action := ARun (c : call) | ABound (theta : Q).
Definition act (s : outputs * fitter) (a : action) : outputs * fitter :=
  match a with
  | ARun c => let '(w, f, _) := single_protocol_run (c_counts c) (c_postp c) (c_vzero c) (fst s) (snd s) in (w, f)
  | ABound theta => match bound_variation_distance theta (snd s) with Ok f => (fst s, f) | Err _ => s end
  end.
Definition history (w : outputs) (l : list action) : outputs * fitter := fold_left act l (w, fitter_new).
Definition runs_of (l : list action) : list call := flat_map (fun a => match a with ARun c => [c] | _ => [] end) l.

(** Smaller of two rationals. *)
Definition at_most_one (q : Q) : Q := if Qle_bool q 1 then q else 1%Q.
