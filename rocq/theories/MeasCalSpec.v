(** Specification vocabulary for measurement calibration. *)
From Coq Require Import QArith.
From Verif Require Import LinAlg Base CountsSpec BasisSem MeasCalModel.
Open Scope nat_scope.

(** Number of qubits in the groups before group [g]. *)
Definition group_offset (sizes : list nat) (g : nat) : nat := fold_right Nat.add 0 (firstn g sizes).

(** The characters of an outcome that belong to group [g]: group 0 is the
    rightmost block. *)
Definition group_part (sizes : list nat) (g : nat) (b : pystr) : pystr :=
  rev (firstn (nth g sizes 0) (skipn (group_offset sizes g) (rev b))).

(** Which qubit is measured into which classical bit, in program order. *)
Definition measurements (body : list instr) : list (nat * nat) :=
  flat_map (fun i => match i with IMeasure q c => [(q, c)] | _ => [] end) body.

(** ** Calibration data

    A calibration shot record: prepared outcome string, measured outcome
    string, number of shots. *)
Definition shot := (pystr * pystr * Z)%type.

(** Shots that read [y] on group [g] while [x] was prepared there. *)
Definition pooled (sizes : list nat) (g : nat) (shots : list shot) (y x : pystr) : Z :=
  zsum (map (fun s => let '(prepared, measured, n) := s in
              if eqb (group_part sizes g prepared) x && eqb (group_part sizes g measured) y
              then n else 0%Z) shots).

(** All shots for which [x] was prepared on group [g]. *)
Definition prepared_shots (sizes : list nat) (g : nat) (shots : list shot) (x : pystr) : Z :=
  zsum (map (fun s => let '(prepared, _, n) := s in
              if eqb (group_part sizes g prepared) x then n else 0%Z) shots).

(** Relative frequency, zero when nothing was prepared. *)
Definition frequency (a b : Z) : Q := if (b =? 0)%Z then 0%Q else (inject_Z a / inject_Z b)%Q.

(** Every shot record has outcomes of the right width. *)
Definition well_formed_shots (n : nat) (shots : list shot) : Prop :=
  forall p m c, In (p, m, c) shots -> (length p = n /\ is_bits p) /\ (length m = n /\ is_bits m).

(** ** Tensor products of matrices indexed by outcome strings *)
Section Kron.
Context {F : Type} {HF : Fld F}.

(** The first factor acts on the rightmost block. *)
Fixpoint kron (fs : list (nat * (pystr -> pystr -> F))) (s1 s2 : pystr) : F :=
  match fs with
  | [] => f1
  | (size, M) :: fs' =>
      let k1 := length s1 - size in let k2 := length s2 - size in
      fmul (M (skipn k1 s1) (skipn k2 s2)) (kron fs' (firstn k1 s1) (firstn k2 s2))
  end.
End Kron.

(** ** Histories of calibration data

    [exp_shots lab name c shots]: an experiment named [name] with counts [c]
    contributes [shots]; it is a calibration experiment when its name is the
    circuit label followed by "cal_" and the prepared outcome, and contributes
    nothing when that text does not occur in its name. *)
Inductive exp_shots (lab : pystr) : pystr -> outcome_counts -> list shot -> Prop :=
| ES_cal b c : b <> [] -> is_bits b ->
    exp_shots lab (lab ++ str "cal_" ++ b) c (map (fun kv => (b, fst kv, snd kv)) c)
| ES_foreign name c : (forall u v, name <> u ++ (lab ++ str "cal_") ++ v) -> exp_shots lab name c [].

(** The results a fitter has been given at its last rebuild, after a history
    of calls [add_data(new, rebuild)]; [None] if it never rebuilt. *)
Fixpoint snapshot {R} (all : list R) (snap : option (list R)) (ops : list (option (list R) * bool))
  : option (list R) :=
  match ops with
  | [] => snap
  | (None, _) :: ops' => snapshot all snap ops'
  | (Some rs, true) :: ops' => snapshot (all ++ rs) (Some (all ++ rs)) ops'
  | (Some rs, false) :: ops' => snapshot (all ++ rs) snap ops'
  end.

(** A list of labels naming every outcome of [s] qubits exactly once. *)
Definition complete_labels (s : nat) (ls : list pystr) : Prop :=
  NoDup ls /\ forall y, In y ls <-> length y = s /\ is_bits y.

(** ** Corrected counts *)
Section Corrected.
Context {F : Type} {HF : Fld F}.

(** The value of a dictionary at an outcome; missing outcomes count zero. *)
Definition value_at (d : list (pystr * F)) (y : pystr) : F :=
  fsum (map (fun kv => if eqb (fst kv) y then snd kv else f0) d).

(** The dictionary [r] lists, once each, exactly the outcomes of [dom] at which
    [x] is not zero, with their values. *)
Definition lists_nonzero (r : list (pystr * F)) (dom : list pystr) (x : pystr -> F) : Prop :=
  NoDup (map fst r) /\ forall y v, In (y, v) r <-> In y dom /\ v = x y /\ v <> f0.

(** [P] is a left, and a right, inverse of [A] on indices below [n]. *)
Definition left_inverse (n : nat) (P A : nat -> nat -> F) : Prop :=
  forall i j, i < n -> j < n ->
    fsum (map (fun k => fmul (P i k) (A k j)) (seq 0 n)) = if i =? j then f1 else f0.

(** Every column sums to one. *)
Definition columns_sum_one (n : nat) (A : nat -> nat -> F) : Prop :=
  forall j, j < n -> fsum (map (fun i => A i j) (seq 0 n)) = f1.

(** [A], with rows and columns named by [ls], is the matrix [M] on outcomes. *)
Definition named (ls : list pystr) (A : nat -> nat -> F) (M : pystr -> pystr -> F) : Prop :=
  forall i j, i < length ls -> j < length ls -> A i j = M (nth i ls []) (nth j ls []).

Definition total_value (d : list (pystr * F)) : F := fsum (map snd d).
End Corrected.

(** One group of qubits of a tensored calibration: number of qubits, labels of
    rows and columns, matrix, and the same matrix indexed by outcomes. *)
Record cal_group (F : Type) := {
  cg_size : nat; cg_labels : list pystr; cg_matrix : nat -> nat -> F; cg_named : pystr -> pystr -> F }.
Arguments cg_size {F}. Arguments cg_labels {F}. Arguments cg_matrix {F}. Arguments cg_named {F}.

Definition group_ok {F} {HF : Fld F} (g : cal_group F) : Prop :=
  complete_labels (cg_size g) (cg_labels g) /\ named (cg_labels g) (cg_matrix g) (cg_named g).

Definition groups_width {F} (gs : list (cal_group F)) : nat := fold_right Nat.add 0 (map cg_size gs).

(** ** Runs of the fitter: the record types and entry points of the model are
    used to say which data was given to it. *)
(** Experiments of the results, with their shots. *)
Definition exps_shots lab (l : list experiment) (ss : list (list shot)) : Prop :=
  Forall2 (fun e s => exp_shots lab (e_name e) (e_counts e) s) l ss.

(** Data of a list of results: distinct names inside each result, no
    empty counts. *)
Definition data_ok (lab : pystr) (n : nat) (rs : list qresult) (sh : list shot) : Prop :=
  (forall r, In r rs -> NoDup (map e_name r)) /\
  (forall r e, In r rs -> In e r -> e_counts e <> []) /\
  exists ss, exps_shots lab (concat rs) ss /\ sh = concat ss /\ well_formed_shots n sh.

(** Run a history of calls. *)
Definition run_history (f : fitter) (ops : list (option (list qresult) * bool)) : result fitter :=
  foldM (fun f op => add_data f (fst op) (snd op)) ops f.

(** A run of the circuits without noise, with [n c] shots for circuit [c]. *)
Definition noiseless_result (n : circuit -> Z) (circs : list circuit) : qresult :=
  map (fun c => {| e_name := c_name c; e_counts := [(noiseless_outcome c, n c)] |}) circs.

(** Position of a qubit in a list. *)
Definition index_in (ql : list nat) (q : nat) : nat := match list_index ql q with Some i => i | None => 0%nat end.

(** Character of a string. *)
Definition cat (s : pystr) (p : nat) : ascii := nth p s "?"%char.
