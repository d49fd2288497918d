(** Specifications for gate-set tomography. *)
From Coq Require Import QArith Reals.
From Verif Require Import Base LinAlg PyStr DihedralModel RBSeqModel TomoModel TomoSpec GstModel.
Local Open Scope list_scope.
Local Open Scope nat_scope.

(** A gate set in which every label names a gate and every SPAM circuit is a
    sequence of gates of the set. *)
Record sound_gateset (b : gateset) : Prop := {
  sg_gates : Forall (fun g => exists f, dget (gs_gates b) g = Some f) (gs_gate_labels b);
  sg_spam : Forall (fun s => exists ops, dget (gs_spam b) s = Some ops /\ Forall (fun g => exists f, dget (gs_gates b) g = Some f) ops) (gs_spam_labels b);
  sg_dup : NoDup (gs_gate_labels b); sg_dup' : NoDup (gs_spam_labels b);
  sg_plain : Forall plain (gs_gate_labels b); sg_plain' : Forall plain (gs_spam_labels b)
}.

(** The instructions of a gate, and of a SPAM circuit: its gates in order. *)
Definition gate_seq (b : gateset) (q : nat) (g : pystr) (c : list cinstr) : Prop :=
  exists f, dget (gs_gates b) g = Some f /\ c = f q.
Definition spam_seq (b : gateset) (q : nat) (s : pystr) (c : list cinstr) : Prop :=
  exists ops cs, dget (gs_spam b) s = Some ops /\ Forall2 (gate_seq b q) ops cs /\ c = concat cs.

(** The three kinds of experiment. *)
Inductive gst_label := L3 (fj g fi : pystr) | L2 (fj fi : pystr) | L1 (fi : pystr).
Definition gst_label_of (b : gateset) (l : gst_label) : Prop :=
  match l with
  | L3 fj g fi => In fj (gs_spam_labels b) /\ In g (gs_gate_labels b) /\ In fi (gs_spam_labels b)
  | L2 fj fi => In fj (gs_spam_labels b) /\ In fi (gs_spam_labels b)
  | L1 fi => In fi (gs_spam_labels b)
  end.
Definition gst_tuple (l : gst_label) : pyval :=
  match l with
  | L3 fj g fi => VTup [VStr fj; VStr g; VStr fi]
  | L2 fj fi => VTup [VStr fj; VStr fi]
  | L1 fi => VTup [VStr fi]
  end.
(** The instructions apart from barriers. *)
Definition is_barrier (i : cinstr) : bool := match i with CBarrier _ => true | _ => false end.
Definition no_barriers (c : list cinstr) : list cinstr := filter (fun i => negb (is_barrier i)) c.
Definition gst_circuit_for (b : gateset) (q : nat) (l : gst_label) (k : tcirc) : Prop :=
  t_width k = 1 + q /\ t_cregs k = [1] /\
  match l with
  | L3 fj g fi => exists cj cg ci, spam_seq b q fj cj /\ gate_seq b q g cg /\ spam_seq b q fi ci /\
      no_barriers (t_body k) = no_barriers (cj ++ moved 1 cg ++ ci) ++ [CMeasure q 0]
  | L2 fj fi => exists cj ci, spam_seq b q fj cj /\ spam_seq b q fi ci /\
      no_barriers (t_body k) = no_barriers (cj ++ ci) ++ [CMeasure q 0]
  | L1 fi => exists ci, spam_seq b q fi ci /\ no_barriers (t_body k) = no_barriers ci ++ [CMeasure q 0]
  end.
