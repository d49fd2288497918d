(** Model of qiskit/ignis/verification/randomized_benchmarking/fitters.py: the
    data that enter the fits.  Not modelled: [curve_fit] and what is computed
    from its output here (see RBEstModel), standard deviations, plots, and the
    raw data left behind by an exception in [calc_data]. *)
From Coq Require Import QArith.
From Verif Require Import Base PyStr CountsModel MeasCalModel RBSeqModel.
Open Scope nat_scope.

(** [RBFitter], fitters.py:133-165. *)
Record rbfitter := {
  f_lengths : list (list Q);
  f_pattern : list (list nat);
  f_results : list qresult;
  f_seeds : list Z;
  f_raw : list (list (list Q));
  f_mean : list (list Q)
}.
Definition new_fitter (lengths : list (list Q)) (pattern : option (list (list nat))) : rbfitter :=
  {| f_lengths := lengths; f_pattern := match pattern with Some p => p | None => [[0]] end;
     f_results := []; f_seeds := []; f_raw := []; f_mean := [] |}.
Definition set_results (f : rbfitter) rs := {| f_lengths := f_lengths f; f_pattern := f_pattern f; f_results := rs; f_seeds := f_seeds f; f_raw := f_raw f; f_mean := f_mean f |}.
Definition set_seeds (f : rbfitter) sd := {| f_lengths := f_lengths f; f_pattern := f_pattern f; f_results := f_results f; f_seeds := sd; f_raw := f_raw f; f_mean := f_mean f |}.
Definition set_data (f : rbfitter) raw mean := {| f_lengths := f_lengths f; f_pattern := f_pattern f; f_results := f_results f; f_seeds := f_seeds f; f_raw := raw; f_mean := mean |}.

(** fitters.py:238-241: [int(name.split('_')[-1])]; stops at the first name that
    does not end in a number. *)
Definition seed_of (name : pystr) : result Z := undec (last (split "_"%char name) []).
Fixpoint add_seeds (seeds : list Z) (r : qresult) : list Z * option pyerr :=
  match r with
  | [] => (seeds, None)
  | e :: r' => match seed_of (e_name e) with
               | Ok s => add_seeds (if mem s seeds then seeds else seeds ++ [s]) r'
               | Err x => (seeds, Some x)
               end
  end.
(** fitters.py:232-241. *)
Fixpoint add_results (f : rbfitter) (rs : list qresult) : rbfitter * option pyerr :=
  match rs with
  | [] => (f, None)
  | r :: rs' =>
      let f1 := set_results f (f_results f ++ [r]) in
      let (sd, err) := add_seeds (f_seeds f1) r in
      let f2 := set_seeds f1 sd in
      match err with Some x => (f2, Some x) | None => add_results f2 rs' end
  end.

(** fitters.py:278-287: the counts of a circuit over the results that have it. *)
Definition count_list (rs : list qresult) (name : pystr) : list counts :=
  flat_map (fun r => match get_counts r name with Ok c => [c] | Err _ => [] end) rs.
Definition ratio (a b : Z) : result Q := if (b =? 0)%Z then Err ZeroDivisionError else Ok (inject_Z a / inject_Z b)%Q.
(** fitters.py:293-318, one entry. *)
Definition raw_entry (circ_counts : dict pystr counts) (name : pystr) (start width : nat) : result Q :=
  do c <- dget_e circ_counts name;
  do sub <- marginal_counts c (Some (seq start width)) false;
  ratio (dget0 sub (repeat ch0 width)) (zsum (dvals c)).
Fixpoint raw_patterns (circ_counts : dict pystr counts) (name_type : pystr) (lengths : list (list Q)) (seeds : list Z)
    (patterns : list (list nat)) (ind start : nat) : result (list (list (list Q))) :=
  match patterns with
  | [] => Ok []
  | pat :: rest =>
      do here <- mapM (fun seed =>
                   do ls <- index_e lengths ind;
                   mapM (fun k => raw_entry circ_counts (name_type ++ len_seed k seed) start (length pat)) (seq 0 (length ls))) seeds;
      do more <- raw_patterns circ_counts name_type lengths seeds rest (S ind) (start + length pat);
      Ok (here :: more)
  end.
(** [calc_data], fitters.py:253-318. *)
Definition calc_data (f : rbfitter) : result (list (list (list Q))) :=
  do r0 <- index_e (f_results f) 0;
  do e0 <- index_e r0 0;
  let name_type := before (str "_length") (e_name e0) in
  do l0 <- index_e (f_lengths f) 0;
  let names := flat_map (fun seed => map (fun k => name_type ++ len_seed k seed) (seq 0 (length l0))) (f_seeds f) in
  let circ_counts := fold_left (fun d name => dset d name (build_counts (count_list (f_results f) name))) names [] in
  raw_patterns circ_counts name_type (f_lengths f) (f_seeds f) (f_pattern f) 0 0.
(** [calc_statistics], fitters.py:320-348: the means. *)
Definition qmean (l : list Q) : Q := (fold_right Qplus 0 l / inject_Z (Z.of_nat (length l)))%Q.
Definition column_means (rows : list (list Q)) : list Q :=
  map (fun k => qmean (map (fun row => nth k row 0%Q) rows)) (seq 0 (length (hd [] rows))).

(** [add_data], fitters.py:212-248. *)
Definition recompute (f : rbfitter) : rbfitter * option pyerr :=
  match calc_data f with
  | Ok raw => (set_data f raw (map column_means raw), None)
  | Err x => (f, Some x)
  end.
Definition add_data (f : rbfitter) (new : option (list qresult)) (rerun : bool) : rbfitter * option pyerr :=
  match new with
  | None => (f, None)
  | Some rs => let (f', err) := add_results f rs in
               match err with Some x => (f', Some x) | None => if rerun then recompute f' else (f', None) end
  end.
(** [RBFitter(backend_result, cliff_lengths, rb_pattern)]. *)
Definition rb_fitter (new : option (list qresult)) (lengths : list (list Q)) (pattern : option (list (list nat))) : rbfitter * option pyerr :=
  add_data (new_fitter lengths pattern) new true.

(** One step after another, stopping at an exception. *)
Definition then_ {A B} (p : A * option pyerr) (k : A -> B * option pyerr) (stop : A -> B) : B * option pyerr :=
  match snd p with None => k (fst p) | Some x => (stop (fst p), Some x) end.

(** [InterleavedRBFitter] and [CNOTDihedralRBFitter], fitters.py:505-534,
    1183-1216: two fitters, each given its results twice.  The final [zip] over
    a missing pattern raises. *)
Definition wrapped_fitter (new1 new2 : option (list qresult)) (lengths : list (list Q)) (pattern : option (list (list nat)))
  : option (rbfitter * rbfitter) * option pyerr :=
  then_ (rb_fitter new1 lengths pattern) (fun f1 =>
  then_ (rb_fitter new2 lengths pattern) (fun f2 =>
  then_ (add_data f1 new1 true) (fun f1' =>
  then_ (add_data f2 new2 true) (fun f2' =>
    match new1, new2, pattern with
    | None, None, _ => (Some (f1', f2'), None)
    | _, _, None => (None, Some TypeError)
    | _, _, Some _ => (Some (f1', f2'), None)
    end) (fun _ => None)) (fun _ => None)) (fun _ => None)) (fun _ => None).
(** [add_data] of these classes, fitters.py:583-603, 1268-1290. *)
Definition wrapped_add (fs : rbfitter * rbfitter) (new1 new2 : option (list qresult)) (rerun : bool) : (rbfitter * rbfitter) * option pyerr :=
  then_ (add_data (fst fs) new1 rerun) (fun f1 =>
  then_ (add_data (snd fs) new2 rerun) (fun f2 => ((f1, f2), None)) (fun f2 => (f1, f2))) (fun f1 => (f1, snd fs)).

(** ** PurityRBFitter *)

(** [F234], fitters.py:855-887; the digits are read from the lowest. *)
Definition LUT (a b : nat) : nat := nth b (nth a [[0; 0; 0]; [3; 1; 2]] []) 0.
Fixpoint F234 (n a b : nat) : nat :=
  match n with
  | 0 => 0
  | S n' => LUT (a mod 2) (b mod 3) + 4 * F234 n' (a / 2) (b / 3)
  end.
(** [add_zdict_ops], fitters.py:889-901: the sign of outcome [j] in the
    correlator [i], [(-1)] to the number of ones of [i & j]. *)
Definition popcount (n : nat) : nat := count1 (bin_str (N.of_nat n)).
Definition zdict_op (nq i : nat) : dict pystr Z :=
  map (fun j => (zfill nq (bin_str (N.of_nat j)), if Nat.even (popcount (Nat.land i j)) then 1%Z else (-1)%Z)) (seq 0 (2 ^ nq)).
(** Terra's [average_data] for a dictionary of values. *)
Definition average_data (c : counts) (op : dict pystr Z) : Q :=
  (fold_right Qplus 0 (map (fun kv => match dget op (fst kv) with
     | Some v => inject_Z (snd kv * v) / inject_Z (zsum (dvals c)) | None => 0 end) c))%Q.
(** The correlators of one set of counts added to the vectors, fitters.py:1003-1012. *)
Definition vec := list (Q * nat).
Definition vec_add (v : vec) (i : nat) (x : Q) : vec :=
  map (fun p => if fst p =? i then ((fst (snd p) + x)%Q, S (snd (snd p))) else snd p) (combine (seq 0 (length v)) v).
Definition purity_of (nq npurity : nat) (corr : nat -> nat -> Q) : result Q :=
  let v := fold_left (fun v p => vec_add v (F234 nq (snd p) (fst p)) (corr (fst p) (snd p)))
             (list_prod (seq 0 npurity) (seq 0 (2 ^ nq))) (repeat (0%Q, 0) (4 ^ nq)) in
  do sq <- mapM (fun p => if snd p =? 0 then Err ZeroDivisionError
                          else let x := (fst p / inject_Z (Z.of_nat (snd p)))%Q in Ok (x * x)%Q) v;
  Ok (fold_right Qplus 0 sq / inject_Z (Z.of_nat (2 ^ nq)))%Q.
(** fitters.py:985-1019: one entry of the raw data; [cs pur] are the counts of
    measurement basis [pur] on the qubits of the pattern. *)
Definition purity_entry (nq npurity : nat) (cs : nat -> counts) : result Q :=
  purity_of nq npurity (fun pur ind => average_data (cs pur) (zdict_op nq ind)).

(** [PurityRBFitter.calc_data], fitters.py:931-1024.  The dictionary of counts,
    whose keys are strings made of the basis, length and seed, is keyed by the
    three numbers. *)
Definition collect_purity (f : rbfitter) (npurity : nat) : result (dict (nat * nat * Z) counts) :=
  do l0 <- index_e (f_lengths f) 0;
  do st <- foldM (fun (st : nat * dict (nat * nat * Z) counts) (sp : Z * nat) =>
    let (seed, pur) := sp in
    do r <- index_e (f_results f) (fst st);
    do e <- index_e r 0;
    let name_type := before (str "_length") (e_name e) in
    Ok (S (fst st), fold_left (fun d k => dset d (pur, k, seed) (build_counts (count_list (f_results f) (name_type ++ len_seed k seed))))
                     (seq 0 (length l0)) (snd st)))
    (list_prod (f_seeds f) (seq 0 npurity)) (0, []);
  Ok (snd st).
Definition purity_raw_entry (d : dict (nat * nat * Z) counts) (nq npurity start width k : nat) (seed : Z) : result Q :=
  do cs <- mapM (fun pur => do c <- dget_e d (pur, k, seed); marginal_counts c (Some (seq start width)) false) (seq 0 npurity);
  purity_entry nq npurity (fun pur => nth pur cs []).
Fixpoint purity_patterns (d : dict (nat * nat * Z) counts) (nq npurity nlen : nat) (seeds : list Z) (patterns : list (list nat)) (start : nat) : result (list (list (list Q))) :=
  match patterns with
  | [] => Ok []
  | pat :: rest =>
      do here <- mapM (fun seed => mapM (fun k => purity_raw_entry d nq npurity start (length pat) k seed) (seq 0 nlen)) seeds;
      do more <- purity_patterns d nq npurity nlen seeds rest (start + length pat);
      Ok (here :: more)
  end.
Definition purity_calc_data (f : rbfitter) (npurity : nat) : result (list (list (list Q))) :=
  do p0 <- index_e (f_pattern f) 0;
  do l0 <- index_e (f_lengths f) 0;
  do d <- collect_purity f npurity;
  purity_patterns d (length p0) npurity (length l0) (f_seeds f) (f_pattern f) 0.
(** [PurityRBFitter.add_data] and [__init__], fitters.py:786-818, 903-929. *)
Definition purity_recompute (npurity : nat) (f : rbfitter) : rbfitter * option pyerr :=
  match purity_calc_data f npurity with
  | Ok raw => (set_data f raw (map column_means raw), None)
  | Err x => (f, Some x)
  end.
Definition purity_add (npurity : nat) (f : rbfitter) (new : option (list qresult)) (rerun : bool) : rbfitter * option pyerr :=
  match new with
  | None => (f, None)
  | Some _ => then_ (add_data f new rerun) (fun f' => if rerun then purity_recompute npurity f' else (f', None)) (fun f' => f')
  end.
Definition purity_fitter (new : option (list qresult)) (npurity : nat) (lengths : list (list Q)) (pattern : option (list (list nat))) : rbfitter * option pyerr :=
  then_ (rb_fitter new lengths pattern) (fun f => purity_add npurity f new true) (fun f => f).
