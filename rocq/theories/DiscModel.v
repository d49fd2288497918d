(** Model of qiskit/ignis/measurement/discriminator: discriminators.py,
    iq_discriminators.py and filters.py.

    Simplifications.  The numbers of the IQ plane are an arbitrary type [V], a
    complex value is the pair of its parts.  Terra's [Result.get_memory] looks up
    the first experiment of that name and raises QiskitError for a missing one
    and for empty level-1 memory; level 0 is not modelled, level-2 memory is a
    list of strings without a shape.  sklearn's classifiers and StandardScaler
    are parameters.  Schedules are names or objects with a name; PulseError is a
    QiskitError.  Plots are not modelled. *)
From Coq Require Import Hexadecimal HexadecimalString HexadecimalNat.
From Verif Require Import Base PyStr.
Local Open Scope string_scope.
Local Open Scope list_scope.
Local Open Scope nat_scope.

(** ** Names and labels *)

(** A schedule, or the name of one. *)
Inductive sched := SName (n : pystr) | SObj (n : pystr).
Definition sname (s : sched) : pystr := match s with SName n | SObj n => n end.

(** discriminators.py:55, 150-162 [is_calibration]: re.match of 'cal_\d+$'; the
    dollar sign also matches before a final line feed. *)
Definition newline : ascii := "010"%char.
Definition cal_digits (s : pystr) : bool := negb (eqb s []) && forallb is_dec_digit s.
Definition is_calibration (name : pystr) : bool :=
  starts (str "cal_") name &&
  let rest := skipn 4 name in
  cal_digits rest || (eqb (last rest "x"%char) newline && cal_digits (removelast rest)).

(** [name.replace('cal_', '')]: [k] characters are still to be skipped. *)
Fixpoint remove_cal (k : nat) (s : pystr) : pystr :=
  match s with
  | [] => []
  | a :: s' => match k with
               | S k' => remove_cal k' s'
               | 0 => if starts (str "cal_") s then remove_cal 3 s' else a :: remove_cal 0 s'
               end
  end.

(** discriminators.py:226-251 [_get_expected_states]: the test is made on the
    list, so that schedule objects are treated as strings. *)
Definition expected_of (s : sched) : result pystr :=
  match s with SName n => Ok (remove_cal 0 n) | SObj _ => Err AttributeError end.
Definition get_expected_states (ss : list sched) : result (list pystr) := mapM expected_of ss.

(** discriminators.py:124-148 [_add_expected_states]. *)
Definition add_expected (d : dict pystr pystr) (labels : list pystr) (ss : list sched) : result (dict pystr pystr) :=
  if negb (length labels =? length ss) then Err QiskitError
  else Ok (fold_left (fun d sl => dset d (sname (fst sl)) (snd sl)) (combine ss labels) d).

(** ** Data *)
Section Disc.
Context {V : Type}.

(** Memory of an experiment: one row of IQ values per shot, one averaged row, or
    level-2 strings. *)
Inductive imem := Single (rows : list (list (V * V))) | Avg (row : list (V * V)) | Level2 (shots : list pystr).
Record iexp := { i_name : pystr; i_mem : imem; i_shots : nat }.
Definition iresult := list iexp.
Definition level1 (e : iexp) : bool := match i_mem e with Level2 _ => false | _ => true end.

(** Terra: [Result.get_memory(name)]. *)
Definition get_memory (r : iresult) (name : pystr) : result imem :=
  match find (fun e => eqb (i_name e) name) r with
  | None => Err QiskitError
  | Some e => match i_mem e with
              | Single [] | Single ([] :: _) | Avg [] => Err QiskitError
              | m => Ok m
              end
  end.

(** discriminators.py:164-224 [_get_schedules], [_append_to_schedules]. *)
Definition wanted (type : nat) (name : pystr) : result bool :=
  match type with
  | 0 => Ok (is_calibration name)
  | 1 => Ok (negb (is_calibration name))
  | 2 => Ok true
  | _ => Err QiskitError
  end.
Definition get_schedules (rs : list iresult) (type : nat) : result (list sched) :=
  foldM (fun acc e => do w <- wanted type (i_name e); Ok (if w : bool then acc ++ [SName (i_name e)] else acc)) (concat rs) [].

(** iq_discriminators.py:161-192 [format_iq_data]. *)
Definition masked (mask : list nat) (row : list (V * V)) : result (list V) :=
  do sel <- mapM (index_e row) mask; Ok (map fst sel ++ map snd sel).
Definition format_iq (mask : list nat) (m : imem) : result (list (list V)) :=
  match m with
  | Single rows => mapM (masked mask) rows
  | Avg row => do f <- masked mask row; Ok [f]
  | Level2 _ => Err AttributeError
  end.

(** iq_discriminators.py:73-117 [get_xdata] without the scaling: for a list of
    results the last one that has the schedule is used. *)
Definition last_memory (rs : list iresult) (name : pystr) : option imem :=
  fold_left (fun acc r => match get_memory r name with Ok m => Some m | Err _ => acc end) rs None.
Definition xdata_list (mask : list nat) (rs : list iresult) (ss : list sched) : result (list (list V)) :=
  do parts <- mapM (fun s => match last_memory rs (sname s) with None => Err QiskitError | Some m => format_iq mask m end) ss;
  Ok (concat parts).
(** The same for a single result. *)
Definition xdata_one (mask : list nat) (r : iresult) (ss : list sched) : result (list (list V)) :=
  do parts <- mapM (fun s => do m <- get_memory r (sname s); format_iq mask m) ss;
  Ok (concat parts).

(** iq_discriminators.py:119-159 [get_ydata]: as many labels as the first
    dimension of the memory, for every result that has the schedule. *)
Definition first_dim (m : imem) : result nat :=
  match m with Single rows => Ok (length rows) | Avg row => Ok (length row) | Level2 _ => Err AttributeError end.
Definition ydata_list (expected : dict pystr pystr) (rs : list iresult) (ss : list sched) : result (list pystr) :=
  do parts <- mapM (fun s =>
    do ls <- mapM (fun r => match get_memory r (sname s) with
                            | Err _ => Ok []
                            | Ok m => do n <- first_dim m; do l <- dget_e expected (sname s); Ok (repeat l n)
                            end) rs;
    Ok (concat ls)) ss;
  Ok (concat parts).

(** ** Fitters
    sklearn: a scaler is fitted to data and transforms data; a classifier is
    fitted to data with labels and predicts labels. *)
Context {S C : Type}.
Variable scaler_fit : list (list V) -> result S.
Variable scaler_apply : S -> list (list V) -> list (list V).
Variable clf_fit : list (list V) -> list pystr -> result C.
Variable clf_predict : C -> list (list V) -> list pystr.

Record disc := {
  k_mask : list nat;                    (* _qubit_mask *)
  k_standardize : bool;                 (* _standardize *)
  k_expected : dict pystr pystr;        (* _expected_state *)
  k_schedules : list sched;             (* _schedules *)
  k_results : list iresult;             (* _backend_result_list *)
  k_scaler : option S;                  (* _scaler *)
  k_x : list (list V);                  (* _xdata *)
  k_y : list pystr;                     (* _ydata *)
  k_clf : option C                      (* the fitted classifier *)
}.

(** discriminators.py:268-298 [_scale_data], never with refit. *)
Definition scale (standardize : bool) (sc : option S) (x : list (list V)) : result (option S * list (list V)) :=
  if negb standardize then Ok (sc, x)
  else match sc with
       | Some s => Ok (sc, scaler_apply s x)
       | None => do s <- scaler_fit x; Ok (Some s, scaler_apply s x)
       end.

(** [fit]: nothing without data; sklearn refuses data and labels of different
    lengths. *)
Definition fit (d : disc) : result disc :=
  if length (k_x d) =? 0 then Ok d
  else if negb (length (k_x d) =? length (k_y d)) then Err ValueError
  else
    do c <- clf_fit (k_x d) (k_y d);
    Ok {| k_mask := k_mask d; k_standardize := k_standardize d; k_expected := k_expected d; k_schedules := k_schedules d;
          k_results := k_results d; k_scaler := k_scaler d; k_x := k_x d; k_y := k_y d; k_clf := Some c |}.

(** discriminators.py:34-85 [__init__], without and with the fit that the
    discriminators of iq_discriminators.py add.  [results] is None, or the list
    of results. *)
Definition prepare (results : option (list iresult)) (mask : list nat) (labels : option (list pystr)) (standardize : bool) (schedules : option (list sched)) : result disc :=
  do ss <- match schedules with
           | Some ss => Ok ss
           | None => match results with None => Err TypeError | Some rs => get_schedules rs 0 end
           end;
  do ls <- match labels with Some ls => Ok ls | None => get_expected_states ss end;
  do expected <- add_expected [] ls ss;
  let rs := match results with None => [] | Some rs => rs end in
  do x0 <- xdata_list mask rs ss;
  do sx <- scale standardize None x0;
  do y <- ydata_list expected rs ss;
  Ok {| k_mask := mask; k_standardize := standardize; k_expected := expected; k_schedules := ss; k_results := rs;
        k_scaler := fst sx; k_x := snd sx; k_y := y; k_clf := None |}.
Definition discriminator (results : option (list iresult)) (mask : list nat) (labels : option (list pystr)) (standardize : bool) (schedules : option (list sched)) : result disc :=
  do d <- prepare results mask labels standardize schedules; fit d.

(** discriminators.py:99-122 [add_data]: the data are those of the new schedules
    only, looked up in all results. *)
Definition add_data (d : disc) (r : iresult) (labels : list pystr) (refit : bool) (schedules : option (list sched)) : result disc :=
  do ss <- match schedules with Some ss => Ok ss | None => get_schedules [r] 0 end;
  let rs := k_results d ++ [r] in
  do expected <- add_expected (k_expected d) labels ss;
  do x0 <- xdata_list (k_mask d) rs ss;
  do sx <- scale (k_standardize d) (k_scaler d) x0;
  do y <- ydata_list expected rs ss;
  let d' := {| k_mask := k_mask d; k_standardize := k_standardize d; k_expected := expected; k_schedules := k_schedules d ++ ss; k_results := rs;
               k_scaler := fst sx; k_x := snd sx; k_y := y; k_clf := k_clf d |} in
  if refit then fit d' else Ok d'.

(** ** Filters, filters.py *)

(** 100-134 [get_base]: one more than the largest digit of the expected states. *)
Definition digit_value (c : ascii) : result nat :=
  match list_index (str "0123456789") c with Some v => Ok v | None => Err QiskitError end.
Definition get_base (expected : dict pystr pystr) : result nat :=
  do base <- foldM (fun base c => do v <- digit_value c; Ok (if v <? base then base else v)) (concat (map snd expected)) 0;
  Ok (base + 1).

(** [int(label, base)] for labels of decimal digits; a base below 2 is refused. *)
Definition int_base (base : nat) (label : pystr) : result nat :=
  if base <? 2 then Err ValueError
  else if eqb label [] then Err ValueError
  else foldM (fun acc c => match list_index (str "0123456789") c with
                           | Some v => if v <? base then Ok (acc * base + v) else Err ValueError
                           | None => Err ValueError
                           end) label 0.
(** [hex(n)]. *)
Definition hexs (n : nat) : pystr := str "0x" ++ list_ascii_of_string (NilZero.string_of_uint (Nat.to_hex_uint n)).

(** 136-154 [count]. *)
Definition count (base : nat) (labels : list pystr) : result (dict pystr Z) :=
  foldM (fun d l => do v <- int_base base l; Ok (dset d (hexs v) (dget0 d (hexs v) + 1)%Z)) labels [].

(** The experiments of the new result, at level 2. *)
Record oexp := { o_name : pystr; o_shots : nat; o_memory : list pystr; o_counts : dict pystr Z }.
(** 60-98 [apply]: the labels are cut into pieces by the numbers of shots; sklearn
    refuses to predict without data or before it was fitted. *)
Fixpoint cut (base : nat) (exps : list iexp) (labels : list pystr) : result (list oexp) :=
  match exps with
  | [] => Ok []
  | e :: exps' =>
      let memory := firstn (i_shots e) labels in
      do c <- count base memory;
      do rest <- cut base exps' (skipn (i_shots e) labels);
      Ok ({| o_name := i_name e; o_shots := i_shots e; o_memory := memory; o_counts := c |} :: rest)
  end.
(** [base] is [None] or 0 if it is to be inferred when the filter is made. *)
Definition filter_apply (d : disc) (base : option nat) (raw : iresult) : result (list oexp) :=
  do b <- match base with Some (Datatypes.S b) => Ok (Datatypes.S b) | _ => get_base (k_expected d) end;
  let exps := filter level1 raw in
  do ss <- get_schedules [exps] 2;
  do x0 <- xdata_one (k_mask d) exps ss;
  do sx <- scale (k_standardize d) (k_scaler d) x0;
  match k_clf d with
  | None => Err ValueError
  | Some c => if length (snd sx) =? 0 then Err ValueError else cut b exps (clf_predict c (snd sx))
  end.
End Disc.
Arguments imem : clear implicits.
Arguments iexp : clear implicits.
Arguments iresult : clear implicits.
Arguments disc : clear implicits.
