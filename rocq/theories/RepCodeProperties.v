(** Properties C13-C16 and C55: repetition codes and their decoders. *)
From Verif Require Import Base BasisSem RepCodeModel RepCodeSpec RepCodeGraphProofs RepCodeMatchProofs RepCodeStatsProofs RepCodeContracts.

(** ** C13 *)
Theorem C13_noiseless_code_is_trivial d T b : 2 <= d -> 1 <= T ->
  let c := repetition_code d T in
  process_string d T (run_string (rc_cregs c) (rc_circ c b)) = Ok (trivial_string d T b).
Proof. exact (C13_lemma d T b). Qed.
Print Assumptions C13_noiseless_code_is_trivial.

Example C13_example :
  let c := repetition_code 3 2 in
  run_string (rc_cregs c) (rc_circ c true) = str "111 00 00" /\
  trivial_string 3 2 true = str "1 1  00 00 00" /\
  process_results 3 2 [(str "0", [(str "000 00 00", 7%Z)]); (str "1", [(str "111 00 00", 5%Z); (str "110 01 00", 2%Z)])]
  = Ok [(str "0", [(str "0 0  00 00 00", 7%Z)]); (str "1", [(str "1 1  00 00 00", 5%Z); (str "1 0  00 01 00", 2%Z)])].
Proof. vm_compute. auto. Qed.

(** ** C14 *)
Theorem C14_single_fault_zero_or_two_nodes d T j q p : 2 <= d -> 1 <= T ->
  let c := repetition_code d T in
  fault_ok (rc_circ c false) (j, q, p) ->
  exists s, process_string d T (run_string (rc_cregs c) (error_circuit (rc_circ c false) j q p)) = Ok s /\
    (length (string2nodes s) = 0 \/ length (string2nodes s) = 2).
Proof. exact (C14_lemma d T j q p). Qed.
Print Assumptions C14_single_fault_zero_or_two_nodes.

(** The decoder can always be constructed. *)
Theorem C14_graph_construction_succeeds d T shots : 2 <= d -> 1 <= T ->
  exists S, make_syndrome_graph (repetition_code d T) shots = Ok S.
Proof. intros Hd HT. destruct (syndrome_graph_spec d T shots Hd HT) as (S & HS & _). exists S. exact HS. Qed.
Print Assumptions C14_graph_construction_succeeds.

(** Each of its nodes can be reached from each other, and its two logical nodes
    are exactly [d] edges apart. *)
Theorem C14_graph_connected d T shots S u v : 2 <= d -> 1 <= T ->
  make_syndrome_graph (repetition_code d T) shots = Ok S ->
  In u (endpoints S) -> In v (endpoints S) -> exists n, path S u v n.
Proof.
  intros Hd HT HS Hu Hv.
  assert (H : forall x, In x (endpoints S) -> In x (RepCodeStringProofs.allnodes d T)).
  { intros x Hx. apply In_endpoints in Hx as (a & b & Hab & Hx). apply (graph_edge_shape d T shots S _ _ Hd HT HS) in Hab.
    destruct Hab as [Hab|Hab]; apply edge_shape_In in Hab; destruct Hx as [-> | ->]; tauto. }
  exact (connected d T shots S Hd HT HS u v (H u Hu) (H v Hv)).
Qed.
Print Assumptions C14_graph_connected.

Theorem C14_logical_nodes_distance_d d T shots S : 2 <= d -> 1 <= T ->
  make_syndrome_graph (repetition_code d T) shots = Ok S ->
  path S [0; 0; 0] [0; 1; 0] d /\ forall n, path S [0; 0; 0] [0; 1; 0] n -> d <= n.
Proof. intros Hd HT HS. exact (logical_distance d T shots S Hd HT HS). Qed.
Print Assumptions C14_logical_nodes_distance_d.

Example C14_example :
  let c := repetition_code 3 2 in
  fault_ok (rc_circ c false) (1, 3, PX) /\
  process_string 3 2 (run_string (rc_cregs c) (error_circuit (rc_circ c false) 1 3 PX)) = Ok (str "0 0  11 00 00") /\
  string2nodes (str "0 0  11 00 00") = [[1; 0; 0]; [1; 0; 1]] /\
  string2nodes (str "1 0  00 01 00") = [[0; 0; 0]; [1; 1; 1]].
Proof.
  cbn zeta. split; [eexists; split; [reflexivity | cbn; auto]|]. vm_compute. auto.
Qed.

(** ** C15 *)
Theorem C15_matching_corrects_few_faults d T shots S b fs spl mwm :
  2 <= d -> 1 <= T -> is_shortest_path spl -> is_max_weight_matching mwm ->
  let c := repetition_code d T in
  make_syndrome_graph c shots = Ok S ->
  Forall (fault_ok (rc_circ c b)) fs -> 2 * length fs < d ->
  exists s, process_string d T (faulty_outcome c b fs) = Ok s /\ matching spl mwm S s = Ok [bit_char b; sp; bit_char b].
Proof. exact (C15_lemma d T shots S b fs spl mwm). Qed.
Print Assumptions C15_matching_corrects_few_faults.

Theorem C15_no_logical_errors d T shots S spl mwm results :
  2 <= d -> 1 <= T -> is_shortest_path spl -> is_max_weight_matching mwm ->
  let c := repetition_code d T in
  make_syndrome_graph c shots = Ok S ->
  NoDup (map fst results) ->
  (forall log cnts, In (log, cnts) results -> shots_of cnts (fun _ => true) <> 0%Z /\
     exists b, log = [bit_char b] /\
     forall k, In k (map fst cnts) -> exists fs, Forall (fault_ok (rc_circ c b)) fs /\ 2 * length fs < d /\
        process_string d T (faulty_outcome c b fs) = Ok k) ->
  get_logical_prob (Some (matching spl mwm S)) results
  = Ok (map (fun lc => (fst lc, (0%Z, shots_of (snd lc) (fun _ => true)))) results).
Proof. exact (C15_prob_lemma d T shots S spl mwm results). Qed.
Print Assumptions C15_no_logical_errors.

(** The contracts assumed of [networkx] are satisfiable. *)
Theorem C15_contracts_satisfiable :
  is_shortest_path (@spl_search node _) /\ is_max_weight_matching (@mwm_search node _).
Proof. split; [exact spl_search_ok | exact mwm_search_ok]. Qed.
Print Assumptions C15_contracts_satisfiable.

(** Two faults in a code of distance 5: the outcome has non-trivial syndrome
    and a wrong logical readout, and the hypotheses hold. *)
Example C15_example :
  let c := repetition_code 5 2 in
  let fs := [(3, 7, PX); (28, 8, PY)] in
  Forall (fault_ok (rc_circ c true)) fs /\ 2 * length fs < 5 /\
  process_string 5 2 (faulty_outcome c true fs) = Ok (str "0 1  1100 1000 0000") /\
  exists S, make_syndrome_graph c 1 = Ok S /\
    matching spl_search mwm_search S (str "0 1  1100 1000 0000") = Ok (str "1 1").
Proof.
  cbn zeta.
  assert (Hf : Forall (fault_ok (rc_circ (repetition_code 5 2) true)) [(3, 7, PX); (28, 8, PY)]).
  { repeat constructor; eexists; (split; [reflexivity | cbn; auto]). }
  assert (Hp : process_string 5 2 (faulty_outcome (repetition_code 5 2) true [(3, 7, PX); (28, 8, PY)]) = Ok (str "0 1  1100 1000 0000")) by (vm_compute; reflexivity).
  split; [exact Hf|]. split; [cbn; lia|]. split; [exact Hp|].
  destruct (C14_graph_construction_succeeds 5 2 1%Z) as (S & HS); [lia | lia|]. exists S. split; [exact HS|].
  destruct (C15_matching_corrects_few_faults 5 2 1%Z S true [(3, 7, PX); (28, 8, PY)] spl_search mwm_search) as (s & Hs & Hm);
    try exact spl_search_ok; try exact mwm_search_ok; try assumption; [lia | lia | cbn; lia|].
  rewrite Hp in Hs. injection Hs as <-. exact Hm.
Qed.

(** ** C16 *)
Theorem C16_matching_statistics decode g results :
  NoDup (map fst results) ->
  (forall log cnts k, In (log, cnts) results -> In k (map fst cnts) -> decode k = Ok (g k) /\ g k <> []) ->
  get_logical_prob (Some decode) results
  = per_log (fun log cnts => freq (shots_of cnts (fun s => differs log (g s))) (shots_of cnts (fun _ => true))) results.
Proof. intros Hn Hg. rewrite (get_logical_prob_lemma decode g results Hn Hg). exact (per_log_mapM _ _). Qed.
Print Assumptions C16_matching_statistics.

Theorem C16_postselection_statistics results :
  NoDup (map fst results) ->
  (forall log cnts, In (log, cnts) results -> NoDup (map fst cnts) /\ forall k, In k (map fst cnts) -> k <> []) ->
  postselection_decoding results
  = per_log (fun log cnts => freq (shots_of cnts (fun s => error_free s && differs log s)) (shots_of cnts error_free)) results.
Proof. intros Hn Hk. rewrite (postselection_lemma results Hn Hk). exact (per_log_mapM _ _). Qed.
Print Assumptions C16_postselection_statistics.

(** The selected shots are those with trivial syndrome. *)
Theorem C16_selected_iff_trivial_syndrome s a b syndrome : decoder_string s a b syndrome ->
  error_free s = true <-> forall c, In c syndrome -> c = "0"%char \/ c = sp.
Proof.
  intros Hs. rewrite (error_free_spec s a b syndrome Hs), forallb_forall. split; intros H c Hc.
  - specialize (H c Hc). apply orb_true_iff in H as [H|H]; apply eqb_true in H; auto.
  - destruct (H c Hc) as [-> | ->]; reflexivity.
Qed.
Print Assumptions C16_selected_iff_trivial_syndrome.

Theorem C16_lookup_statistics training t0 t1 real :
  NoDup (map fst real) -> dget training (str "0") = Some t0 -> dget training (str "1") = Some t1 ->
  (forall log cnts, In (log, cnts) real -> log = str "0" \/ log = str "1") ->
  lookuptable_decoding training real
  = per_log (fun log cnts => freq
      (shots_of cnts (fun s => if eqb log (str "0") then (dget0 t1 s >? dget0 t0 s)%Z else (dget0 t0 s >? dget0 t1 s)%Z))
      (shots_of cnts (fun _ => true))) real.
Proof. intros Hn H0 H1 Hl. rewrite (lookup_lemma training t0 t1 real Hn H0 H1 Hl). exact (per_log_mapM _ _). Qed.
Print Assumptions C16_lookup_statistics.

(** Each number is a proportion. *)
Theorem C16_proportions d P Q i s :
  (forall kv, In kv d -> (0 <= snd kv)%Z) -> (forall k, P k = true -> Q k = true) ->
  freq (shots_of d P) (shots_of d Q) = Ok (i, s) -> (0 <= i <= s)%Z /\ (0 < s)%Z.
Proof. exact (freq_bounds d P Q i s). Qed.
Print Assumptions C16_proportions.

Theorem C16_no_shots_rejected log rest :
  get_logical_prob None ((log, []) :: rest) = Err ZeroDivisionError /\
  (forall cnts, get_logical_prob None ((log, cnts) :: rest) = Err ZeroDivisionError) /\
  (forall cnts, (forall k, In k (map fst cnts) -> error_free k = false) ->
     postselection_decoding ((log, cnts) :: rest) = Err ZeroDivisionError).
Proof. exact (no_shots_lemma log rest). Qed.
Print Assumptions C16_no_shots_rejected.

Definition ex_results : dict pystr (dict pystr Z) :=
  [(str "0", [(str "0 0  00 00", 6%Z); (str "1 0  00 00", 1%Z); (str "1 1  01 00", 2%Z)]);
   (str "1", [(str "1 1  00 00", 3%Z); (str "0 0  01 00", 4%Z); (str "0 0  00 00", 0%Z)])].
Example C16_example :
  postselection_decoding ex_results = Ok [(str "0", (1%Z, 7%Z)); (str "1", (0%Z, 3%Z))] /\
  lookuptable_decoding ex_results ex_results = Ok [(str "0", (0%Z, 9%Z)); (str "1", (0%Z, 7%Z))] /\
  lookuptable_decoding (rev ex_results) [(str "0", [(str "1 1  00 00", 2%Z); (str "zz", 5%Z)])] = Ok [(str "0", (2%Z, 7%Z))] /\
  get_logical_prob (Some (fun s => Ok (firstn 3 s))) ex_results = Ok [(str "0", (3%Z, 9%Z)); (str "1", (4%Z, 7%Z))].
Proof. vm_compute. auto. Qed.

(** ** C55 *)

(** [process_results] renames outcomes without merging or losing any: every
    distinct key of the code's circuits becomes a distinct key with the same
    count. *)
Theorem C55_processing_keeps_every_outcome d T raw : 2 <= d -> 1 <= T ->
  NoDup (map fst raw) -> (forall kv, In kv raw -> code_key d T (fst kv)) ->
  exists r, process_counts d T raw = Ok r /\ NoDup (map fst r) /\
    Forall2 (fun kv kv' => process_string d T (fst kv) = Ok (fst kv') /\ snd kv' = snd kv) raw r.
Proof. exact (C55_lemma d T raw). Qed.
Print Assumptions C55_processing_keeps_every_outcome.

Theorem C55_processing_injective d T s s' t : 2 <= d -> 1 <= T -> code_key d T s -> code_key d T s' ->
  process_string d T s = Ok t -> process_string d T s' = Ok t -> s = s'.
Proof. exact (process_injective d T s s' t). Qed.
Print Assumptions C55_processing_injective.

Example C55_example : code_key 3 2 (str "110 01 00") /\ code_key 3 2 (str "011 11 10").
Proof.
  assert (H : forall n s, length s = n -> forallb (fun c => eqb c "0"%char || eqb c "1"%char) s = true -> bitstring n s).
  { intros n s Hl Hb. rewrite forallb_forall in Hb. split; [exact Hl|]. intros c Hc. specialize (Hb c Hc).
    apply orb_true_iff in Hb as [Hb|Hb]; apply eqb_true in Hb; auto. }
  split.
  - exists (str "110"), [str "01"; str "00"]. split; [apply H; reflexivity|]. split; [reflexivity|]. split; [|reflexivity].
    repeat apply Forall_cons; try apply Forall_nil; apply H; reflexivity.
  - exists (str "011"), [str "11"; str "10"]. split; [apply H; reflexivity|]. split; [reflexivity|]. split; [|reflexivity].
    repeat apply Forall_cons; try apply Forall_nil; apply H; reflexivity.
Qed.
