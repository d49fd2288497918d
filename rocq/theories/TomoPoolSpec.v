(** Specifications for the data of the tomography fitters. *)
From Coq Require Import QArith Reals.
From Coquelicot Require Import Coquelicot.
From Verif Require Import LinAlg Base PyStr CountsModel CountsSpec MeasCalModel TomoModel TomoFitModel TomoFitSpec.
Local Open Scope list_scope.
Local Open Scope nat_scope.

(** The counts of an experiment: those of the last result that has one of this
    name, and in it the first of this name. *)
Definition has_counts (r : qresult) (name : pystr) (c : counts) : Prop :=
  exists r1 e r2, r = r1 ++ e :: r2 /\ Forall (fun e => e_name e <> name) r1 /\ e_name e = name /\ e_counts e = c.
Definition last_counts (rs : list qresult) (name : pystr) (c : counts) : Prop :=
  exists rs1 r rs2, rs = rs1 ++ r :: rs2 /\ has_counts r name c /\ Forall (fun r => Forall (fun e => e_name e <> name) r) rs2.
(** The shots of a label and an outcome, in the data of a fitter. *)
Definition shots_at (data : dict pyval counts) (t : pyval) (k : pystr) : Z :=
  match dget data t with Some c => count_of c k | None => 0%Z end.
(** The counts of a call, by circuit. *)
Definition call_counts (rs : list qresult) (cs : list circ_arg) (l : list (pyval * counts)) : Prop :=
  Forall2 (fun a tc => literal_eval (arg_name a) = Ok (fst tc) /\ last_counts rs (arg_name a) (snd tc)) cs l.
Definition shots_in (l : list (pyval * counts)) (t : pyval) (k : pystr) : Z :=
  fold_right Z.add 0%Z (map (fun tc => if eqb (fst tc) t then count_of (snd tc) k else 0%Z) l).
Definition wf_results (rs : list qresult) : Prop := Forall (fun r => Forall (fun e => NoDup (dkeys (e_counts e))) r) rs.

(** Several calls of [add_data].  The bits kept of a circuit: all of them, or, when
    the first circuit of the call has other registers than that of the
    tomography, the first [n], the labels being those of a process on [n] qubits. *)
Definition other_registers (cs : list circ_arg) : bool :=
  match cs with CCirc c :: _ => negb (length (t_cregs c) =? 1) | _ => false end.
Definition used (cs : list circ_arg) (t : pyval) (c : counts) (u : pystr -> Z) : Prop :=
  if other_registers cs then
    exists ps ms m, t = VTup [VTup ps; VTup ms] /\ ps <> [] /\ valid_counts m c /\ length ps <= m /\ forall k, u k = marginal_spec c (seq 0 (length ps)) k
  else forall k, u k = count_of c k.
Definition call_used (call : list qresult * list circ_arg) (us : list (pyval * (pystr -> Z))) : Prop :=
  wf_results (fst call) /\ snd call <> [] /\
  Forall2 (fun a tu => literal_eval (arg_name a) = Ok (fst tu) /\ exists c, last_counts (fst call) (arg_name a) c /\ used (snd call) (fst tu) c (snd tu)) (snd call) us.
Definition shots_used (us : list (pyval * (pystr -> Z))) (t : pyval) (k : pystr) : Z :=
  fold_right Z.add 0%Z (map (fun tu => if eqb (fst tu) t then snd tu k else 0%Z) us).
