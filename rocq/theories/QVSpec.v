(** Independent meaning of the quantum-volume test, for properties C42, C43 and
    C61. *)
From Coq Require Import QArith Lqa Reals Sorting.Sorted Sorting.Permutation.
From Coquelicot Require Import Coquelicot.
From Verif Require Import Base LinAlg CountsModel CountsSpec MeasCalModel RBFitSpec DihedralModel RBSeqModel QVModel.
Open Scope nat_scope.

(** ** The median *)
Definition is_median (l : list Q) (m : Q) : Prop :=
  exists s, Permutation l s /\ Sorted Qle s /\
    ((2 # 1) * m == nth ((length l - 1) / 2) s 0 + nth (length l / 2) s 0)%Q.

(** ** Ideal outcomes *)
(** Probability of outcome number [b] of a statevector. *)
Definition amp_prob (vec : list (Q * Q)) (b : nat) : Q :=
  let a := nth b vec (0%Q, 0%Q) in (fst a * fst a + snd a * snd a)%Q.
(** Probabilities of all the outcomes of [d] qubits; probability of a bit string
    (qubit 0 last). *)
Definition all_probs (vec : list (Q * Q)) (d : nat) : list Q := map (amp_prob vec) (seq 0 (2 ^ d)).
Definition string_prob (vec : list (Q * Q)) (k : pystr) : Q := amp_prob vec (binary_value 0 k).
Definition sumq (l : list Q) : Q := fold_right Qplus 0%Q l.
Definition distinct (l : list Q) : Prop := forall i j, i < j < length l -> ~ (nth i l 0 == nth j l 0)%Q.

(** ** Uses of a fitter *)
Inductive action := AddIdeal (svs : option (list (list svexp))) | AddData (rs : option (list qresult)) (rerun_fit : bool).
Definition act (f : qv) (a : action) : qv :=
  match a with AddIdeal s => fst (add_statevectors f s) | AddData r b => fst (add_data f r b) end.
(** A new fitter and then any calls, whether or not they raise. *)
Definition history (qubit_lists : list (list nat)) (l : list action) : qv := fold_left act l (qv_new qubit_lists).
(** The ideal circuits, and the results, given to the fitter. *)
Definition ideal_given (l : list action) (e : svexp) : Prop := exists rs r, In (AddIdeal (Some rs)) l /\ In r rs /\ In e r.
Definition result_given (l : list action) (r : qresult) : Prop := exists rs b, In (AddData (Some rs) b) l /\ In r rs.
(** Counts are not negative, and an outcome has one count. *)
Definition proper (r : qresult) : Prop :=
  NoDup (map e_name r) /\ forall e, In e r -> NoDup (map fst (e_counts e)) /\ forall kv, In kv (e_counts e) -> (0 <= snd kv)%Z.

(** Shots of depth [d], over all trials and results, with an outcome in the
    heavy set [hs t] of the trial; and all the shots of that depth. *)
Definition heavy_shots (f : qv) (hs : nat -> list pystr) (d : nat) : Z :=
  zsum (map (fun t => shots_with (fun k => mem k (hs t)) (recorded (v_results f) (qv_name d t))) (seq 0 (v_ntrials f))).
Definition all_shots (f : qv) (d : nat) : Z :=
  zsum (map (fun t => shots_with always (recorded (v_results f) (qv_name d t))) (seq 0 (v_ntrials f))).

(** ** The error function *)
Definition erf (x : R) : R := (2 / sqrt PI * RInt (fun t => exp (- (t * t))) 0 x)%R.
Definition increasing (g : R -> R) : Prop := forall x y, (x < y)%R -> (g x < g y)%R.

(** ** Circuits *)
Definition ascending (l : list nat) : Prop := Sorted lt l.
(** The qubits on which the circuit of a list of qubits is run: the listed ones,
    except when the largest one is the length of the list. *)
Definition placed_on (l : list nat) : list nat := if fold_right Nat.max 0 l =? length l then seq 0 (length l) else l.
(** Every one of [d] qubits has a gate. *)
Definition touches_all (d : nat) (body : list ginstr) : Prop := forall q, q < d -> exists g, In g body /\ In q (gqubits g).
