(** Model of [qiskit/ignis/verification/tomography/data.py] (whole file) and of
    [qiskit/ignis/utils.py: build_counts_dict_from_list].

    Simplifications: counts are integers ([Z]); numpy integers are identified
    with Python integers. *)
From Verif Require Import Base.
From Coq Require Import Sorting.Mergesort Orders.

Definition counts := dict pystr Z.

Definition ch0 : ascii := "0"%char.
Definition ch1 : ascii := "1"%char.
Definition chsp : ascii := " "%char.

(** [bin(j)[2:]] for a positive number: most significant digit first. *)
Fixpoint pos_bin (p : positive) : pystr :=
  match p with
  | xH => [ch1]
  | xO p' => pos_bin p' ++ [ch0]
  | xI p' => pos_bin p' ++ [ch1]
  end.

(** [bin(j)[2:]]; Python renders zero as ['0']. *)
Definition bin_str (j : N) : pystr :=
  match j with N0 => [ch0] | Npos p => pos_bin p end.

(** [s.zfill(w)]: pad on the left with ['0'] to width [w]. *)
Definition zfill (w : nat) (s : pystr) : pystr := repeat ch0 (w - length s) ++ s.

(** tomography/data.py:104-116 [count_keys]. *)
Definition count_keys (n : nat) : list pystr :=
  map (fun j => zfill n (bin_str (N.of_nat j))) (seq 0 (2 ^ n)).

(** [key.replace(' ', '')], data.py:56, 63, 90. *)
Definition trim (s : pystr) : pystr := filter (fun c => negb (eqb c chsp)) s.

(** [sorted(meas_qubits, reverse=True)], data.py:71: insertion sort, which
    yields the same list as Python's sort on integers. *)
Fixpoint insert_desc (x : nat) (l : list nat) : list nat :=
  match l with
  | [] => [x]
  | a :: l' => if a <=? x then x :: a :: l' else a :: insert_desc x l'
  end.
Definition sort_desc (l : list nat) : list nat := fold_right insert_desc [] l.

(** One element of the regular expressions built at data.py:76-83: a literal
    character or [\d]. *)
Inductive rx := RLit (c : ascii) | RDigit.

Definition is_digit (c : ascii) : bool :=
  let n := N_of_ascii c in (48 <=? n)%N && (n <=? 57)%N.

Definition rx_char (r : rx) (c : ascii) : bool :=
  match r with RLit c' => eqb c' c | RDigit => is_digit c end.

(** [re.match(m, s)], data.py:90: the pattern must match a prefix of [s]. *)
Fixpoint rx_match (m : list rx) (s : pystr) : bool :=
  match m, s with
  | [], _ => true
  | r :: m', c :: s' => rx_char r c && rx_match m' s'
  | _ :: _, [] => false
  end.

(** data.py:79-82 [helper]: prepend the digit of [key] for a kept qubit [y]
    and [\d] for a qubit summed over.  [key[qubits.index(y)]] is always in
    range; the fallback character is never used (lemma [helper_in_range]). *)
Definition rx_helper (qubits : list nat) (key : pystr) (x : list rx) (y : nat) : list rx :=
  match list_index qubits y with
  | Some i => RLit (nth i key "?"%char) :: x
  | None => RDigit :: x
  end.

(** data.py:83: [reduce(helper, range(num_qubits), '')]. *)
Definition rx_for (qubits : list nat) (nq : nat) (key : pystr) : list rx :=
  fold_left (rx_helper qubits key) (seq 0 nq) [].

(** data.py:87-92: add up the counts of all keys matching the pattern. *)
Definition match_total (c : counts) (m : list rx) : Z :=
  fold_left (fun acc kv => if rx_match m (trim (fst kv)) then (acc + snd kv)%Z else acc) c 0%Z.

(** data.py:33-101 [marginal_counts].  [meas = None] stands for the default
    [meas_qubits=True].  An empty dictionary makes [next(iter(counts))] raise
    [StopIteration]. *)
Definition marginal_counts (c : counts) (meas : option (list nat)) (pad : bool)
  : result counts :=
  match c with
  | [] => Err StopIteration
  | (k0, _) :: _ =>
      let nq := length (trim k0) in
      let shortcut := match meas with None => true | Some qs => nq =? length qs end in
      if shortcut then
        (* 60-65 *)
        Ok (fold_left (fun r kv => dset r (trim (fst kv)) (snd kv)) c [])
      else
        let qubits := sort_desc (match meas with None => seq 0 nq | Some qs => qs end) in
        let meas_keys := count_keys (length qubits) in
        let meas_counts := map (fun key => match_total c (rx_for qubits nq key)) meas_keys in
        let zipped := combine meas_keys meas_counts in
        if pad then
          (* 95-96: dict(zip(...)) *)
          Ok (fold_left (fun r kv => dset r (fst kv) (snd kv)) zipped [])
        else
          (* 97-101 *)
          Ok (fold_left (fun r kv => if eqb (snd kv) 0%Z then r else dset r (fst kv) (snd kv))
                        zipped [])
  end.

(** data.py:119-141 [combine_counts], on values: [ret[key] += val] or
    [ret[key] = val]. *)
Definition combine_step (r : counts) (kv : pystr * Z) : counts :=
  if dmem r (fst kv) then dset r (fst kv) (dget0 r (fst kv) + snd kv)%Z
  else dset r (fst kv) (snd kv).
Definition combine_counts (c1 c2 : counts) : counts := fold_left combine_step c2 c1.

(** The same function on a heap of dictionary objects, for the aliasing
    effect of [ret = counts1] (data.py:135): object [a1] is updated in place
    and the returned reference is [a1] itself. *)
Definition heap := list counts.
Fixpoint heap_set (h : heap) (a : nat) (c : counts) : heap :=
  match h, a with
  | [], _ => []
  | _ :: h', 0 => c :: h'
  | x :: h', S a' => x :: heap_set h' a' c
  end.
Definition combine_counts_heap (h : heap) (a1 a2 : nat) : result (heap * nat) :=
  match nth_error h a1, nth_error h a2 with
  | Some c1, Some c2 => Ok (heap_set h a1 (combine_counts c1 c2), a1)
  | _, _ => Err KeyError
  end.

(** [itertools.combinations(l, r)], in its lexicographic order. *)
Fixpoint combinations {A} (l : list A) (r : nat) : list (list A) :=
  match r with
  | 0 => [[]]
  | S r' =>
      match l with
      | [] => []
      | a :: l' => map (cons a) (combinations l' r') ++ combinations l' r
      end
  end.

(** data.py:178-181: all non-empty subsets of [range(numq)]. *)
Definition op_subsets (n : nat) : list (list nat) :=
  flat_map (fun r => combinations (seq 0 n) (r + 1)) (seq 0 n).

(** data.py:187-191: ['0'] everywhere except at the positions in the subset,
    counted from the left. *)
Definition exp_op (n : nat) (subset : list nat) : pystr :=
  map (fun i => if mem i subset then ch1 else ch0) (seq 0 n).

(** [key.count('1')] *)
Definition count1 (s : pystr) : nat := length (filter (eqb ch1) s).

(** [(-1) ** k] *)
Definition sgn (k : nat) : Z := if Nat.even k then 1%Z else (-1)%Z.

(** data.py:193-197. *)
Definition exp_value (c : counts) (subset : list nat) : result Z :=
  do m <- marginal_counts c (Some subset) true;
  Ok (fold_left (fun acc kv => acc + sgn (count1 (fst kv)) * snd kv)%Z m 0%Z).

(** data.py:144-200 [expectation_counts].  [list(counts.keys())[0]] raises
    [IndexError] on an empty dictionary. *)
Definition expectation_counts (c : counts) : result counts :=
  match c with
  | [] => Err IndexError
  | (k0, _) :: _ =>
      let shots := zsum (dvals c) in
      let numq := length k0 in
      foldM (fun d subset => do v <- exp_value c subset; Ok (dset d (exp_op numq subset) v))
            (op_subsets numq) [(str "00", shots)]
  end.

(** utils.py [build_counts_dict_from_list]: one dictionary is returned
    unchanged; several are added key by key; none gives the empty dictionary. *)
Definition build_counts (l : list counts) : counts :=
  match l with
  | [c] => c
  | _ => fold_left (fun acc c =>
           fold_left (fun r kv => dset r (fst kv) (dget0 r (fst kv) + snd kv)%Z) c acc) l []
  end.
