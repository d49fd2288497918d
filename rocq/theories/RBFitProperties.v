(** C28 and the purity estimate of C25: the data entering the fits. *)
From Coq Require Import QArith.
From Verif Require Import Base PyStr CountsModel CountsSpec MeasCalModel RBSeqModel RBFitModel RBFitSpec RBFitProofs RBPurProofs.
Open Scope nat_scope.

(** ** C28 *)

(** After any history of calls of [add_data] that do not raise, the last of
    which computes the data: the results held are those added; the seeds are
    those of the names, without repetition; and for every pattern, seed and
    length the raw datum is the fraction of the shots with all the bits of the
    pattern 0 among all the shots of that circuit in all the results added.  The
    mean entering the fit is the mean of these fractions over the seeds. *)
Theorem C28_history n lengths pattern h rs f : added (new_fitter lengths pattern) (h ++ [(Some rs, true)]) f ->
  results_fine n (results_of h ++ rs) -> Forall (fun p => p <> []) (f_pattern f) -> length (concat (f_pattern f)) <= n ->
  f_results f = results_of h ++ rs /\ NoDup (f_seeds f) /\ (forall s, In s (f_seeds f) <-> seeds_named (results_of h ++ rs) s) /\
  exists ty, type_of (results_of h ++ rs) ty /\
  forall i pat, nth_error (f_pattern f) i = Some pat ->
    exists ls, nth_error lengths i = Some ls /\ forall k, k < length ls ->
      (forall j seed, nth_error (f_seeds f) j = Some seed ->
        (0 <> shots_with always (recorded (results_of h ++ rs) (ty ++ len_seed k seed)))%Z /\
        exists v, raw_at f i j k = Some v /\ (v == fraction (results_of h ++ rs) (ty ++ len_seed k seed) (start_of (f_pattern f) i) (length pat))%Q) /\
      exists m, mean_at f i k = Some m /\
        (m == qmean (map (fun seed => fraction (results_of h ++ rs) (ty ++ len_seed k seed) (start_of (f_pattern f) i) (length pat)) (f_seeds f)))%Q.
Proof. exact (history n lengths pattern h rs f). Qed.
Print Assumptions C28_history.

(** The data can be computed as soon as every circuit of every seed has shots
    and no pattern has more lengths than the first. *)
Theorem C28_defined n f ty l0 : results_fine n (f_results f) -> type_of (f_results f) ty -> nth_error (f_lengths f) 0 = Some l0 ->
  Forall (fun p => p <> []) (f_pattern f) -> length (concat (f_pattern f)) <= n ->
  (forall i, i < length (f_pattern f) -> exists ls, nth_error (f_lengths f) i = Some ls /\ length ls <= length l0) ->
  (forall seed k, In seed (f_seeds f) -> k < length l0 -> shots_with always (recorded (f_results f) (ty ++ len_seed k seed)) <> 0%Z) ->
  exists raw, calc_data f = Ok raw.
Proof. exact (calc_defined n f ty l0). Qed.
Print Assumptions C28_defined.

Local Open Scope string_scope.
Local Open Scope list_scope.
Local Open Scope nat_scope.
Definition expt (name : string) (c : list (string * Z)) : experiment := {| e_name := str name; e_counts := map (fun kv => (str (fst kv), snd kv)) c |}.
Definition batch1 : list qresult := [[expt "rb_length_0_seed_0" [("000", 6%Z); ("011", 2%Z)]; expt "rb_length_1_seed_0" [("000", 4%Z); ("100", 4%Z)]]].
Definition batch2 : list qresult := [[expt "rb_length_1_seed_0" [("000", 0%Z); ("010", 2%Z)]; expt "rb_length_0_seed_0" [("000", 1%Z); ("100", 1%Z)]];
                                     [expt "rb_length_0_seed_7" [("001", 5%Z)]; expt "rb_length_1_seed_7" [("000", 3%Z); ("101", 1%Z)]]].
Definition lens : list (list Q) := [[1; 10]; [2; 20]]%Q.
Example C28_example :
  exists f, added (new_fitter lens (Some [[4; 2]; [7]])) ([(Some batch1, false); (None, true)] ++ [(Some batch2, true)]) f /\
  results_fine 3 (results_of [(Some batch1, false); (None, true)] ++ batch2) /\ f_seeds f = [0; 7]%Z /\
  map (map (map Qred)) (f_raw f) = [[[4 # 5; 4 # 5]; [0; 3 # 4]]; [[9 # 10; 3 # 5]; [1; 3 # 4]]]%Q /\
  map (map Qred) (f_mean f) = [[2 # 5; 31 # 40]; [19 # 20; 27 # 40]]%Q.
Proof.
  eexists. split; [cbn [added app]; eexists; split; [vm_compute; reflexivity|]; eexists; split; [vm_compute; reflexivity|]; eexists; split; vm_compute; reflexivity|].
  split; [|vm_compute; auto]. intros r Hr. cbn in Hr.
  assert (B : forall k, In k (map str ["000"; "011"; "100"; "010"; "001"; "101"]) -> is_bits k) by (intros k Hk; cbn in Hk; intuition subst; intros c Hc; cbn in Hc; intuition congruence).
  destruct Hr as [<-|[<-|[<-|[]]]]; (split; [cbn; repeat constructor; cbn; intuition discriminate|]); intros e [<-|[<-|[]]]; (split; [cbn; repeat constructor; cbn; intuition discriminate|]); intros k v Hk; cbn in Hk;
    repeat (destruct Hk as [Hk|Hk]; [injection Hk as <- <-; split; [reflexivity | apply B; cbn; tauto]|]); destruct Hk.
Qed.

(** The interleaved and the CNOT-dihedral fitters hand the results to the two
    fitters twice; the data are the same as if they had been handed once. *)
Theorem C28_wrapped n rs1 rs2 lengths pattern f1 f2 : wrapped_fitter (Some rs1) (Some rs2) lengths (Some pattern) = (Some (f1, f2), None) ->
  results_fine n rs1 -> results_fine n rs2 -> Forall (fun p => p <> []) pattern -> length (concat pattern) <= n ->
  Forall2 (fun rs f => exists ty, type_of rs ty /\ forall i pat, nth_error pattern i = Some pat ->
    exists ls, nth_error lengths i = Some ls /\ forall k j seed, k < length ls -> nth_error (f_seeds f) j = Some seed ->
      exists v, raw_at f i j k = Some v /\ (v == fraction rs (ty ++ len_seed k seed) (start_of pattern i) (length pat))%Q) [rs1; rs2] [f1; f2].
Proof.
  intros H F1 F2 Hp Hn. destruct (wrapped_inv _ _ _ _ _ _ H) as [A1 A2].
  repeat constructor; [apply (wrapped_entry n rs1 lengths pattern f1 A1) | apply (wrapped_entry n rs2 lengths pattern f2 A2)]; assumption.
Qed.
Print Assumptions C28_wrapped.

(** But the results held are the double, so after [add_data] the first results
    weigh twice: 0 of 10 shots, then 10 of 10, give 1/3 and not 1/2. *)
Definition w1 : list qresult := [[expt "rb_length_0_seed_0" [("1", 10%Z)]]].
Definition w2 : list qresult := [[expt "rb_length_0_seed_0" [("0", 10%Z)]]].
Theorem C28_wrapped_refuted :
  exists f1 f2 g1 g2, wrapped_fitter (Some w1) (Some w1) [[1%Q]] (Some [[0]]) = (Some (f1, f2), None) /\
    wrapped_add (f1, f2) (Some w2) (Some w2) true = ((g1, g2), None) /\
    option_map Qred (raw_at g1 0 0 0) = Some (1 # 3)%Q /\ Qred (fraction (w1 ++ w2) (str "rb_length_0_seed_0") 0 1) = (1 # 2)%Q /\
    f_results f1 = w1 ++ w1.
Proof. do 4 eexists. split; [vm_compute; reflexivity|]. split; [vm_compute; reflexivity|]. vm_compute. auto. Qed.
Print Assumptions C28_wrapped_refuted.

(** And the documented default of the pattern raises. *)
Theorem C28_default_pattern_refuted :
  wrapped_fitter (Some w1) (Some w1) [[1%Q]] None = (None, Some TypeError) /\
  exists f, rb_fitter (Some w1) [[1%Q]] None = (f, None).
Proof. split; [vm_compute; reflexivity|]. eexists. vm_compute. reflexivity. Qed.
Print Assumptions C28_default_pattern_refuted.

(** ** C25, the estimate of the purity *)

(** If the results held are in the order of the bases, for each seed, every
    raw datum of a pattern is 2^-n times the sum over all 4^n Pauli strings of
    the square of the mean, over all the bases that measure the string, of the
    correlator of the bits of its support. *)
Theorem C25_purity_estimate n nq f rs f' ty : purity_add (3 ^ nq) f (Some rs) true = (f', None) -> results_fine n (f_results f') ->
  0 < nq -> Forall (fun p => length p = nq) (f_pattern f') -> length (concat (f_pattern f')) <= n ->
  types_in_order (f_results f') (length (f_seeds f')) (3 ^ nq) ty ->
  f_results f' = f_results f ++ rs /\
  exists l0, nth_error (f_lengths f') 0 = Some l0 /\
  forall i j k seed, i < length (f_pattern f') -> nth_error (f_seeds f') j = Some seed -> k < length l0 ->
    exists v, raw_at f' i j k = Some v /\
      (v == purity_spec nq (fun b p => correlator (f_results f') (ty (basis_index b) ++ len_seed k seed) (positions (start_of (f_pattern f') i) p)))%Q.
Proof. exact (purity_added n nq f rs f' ty). Qed.
Print Assumptions C25_purity_estimate.

(** Every Pauli string is measured by 3 to the number of its identities bases. *)
Theorem C25_bases_per_pauli n p : In p (all_lists 4 n) -> length (filter (fun b => measures b p) (all_lists 3 n)) = 3 ^ count_occ Nat.eq_dec p 0.
Proof. exact (measured_count n p). Qed.
Print Assumptions C25_bases_per_pauli.

(** So when the bases agree on the expectation values, each Pauli string enters
    with weight one: the estimate is 2^-n times the sum of their squares. *)
Theorem C25_purity_consistent n corr ex : (forall b p, In b (all_lists 3 n) -> In p (all_lists 4 n) -> measures b p = true -> corr b p == ex p)%Q ->
  (purity_spec n corr == qsum (map (fun p => ex p * ex p) (all_lists 4 n)) / inject_Z (Z.of_nat (2 ^ n)))%Q.
Proof. exact (purity_consistent n corr ex). Qed.
Print Assumptions C25_purity_consistent.

(** The ground state of one qubit, measured on classical bit 0, is found pure. *)
Definition pz (s : string) (c : list (string * Z)) : qresult := [expt s c].
Definition one_seed (seed : string) : list qresult :=
  [pz ("rb_purity_Z_length_0_seed_" ++ seed)%string [("0", 4%Z)]; pz ("rb_purity_X_length_0_seed_" ++ seed)%string [("0", 2%Z); ("1", 2%Z)]; pz ("rb_purity_Y_length_0_seed_" ++ seed)%string [("0", 3%Z); ("1", 3%Z)]].
Example C25_purity_example : exists f, purity_fitter (Some (one_seed "0" ++ one_seed "1")) 3 [[1%Q]] None = (f, None) /\
  map (map (map Qred)) (f_raw f) = [[[1]; [1]]]%Q /\
  types_in_order (f_results f) (length (f_seeds f)) (3 ^ 1) (fun pur => nth pur (map str ["rb_purity_Z"; "rb_purity_X"; "rb_purity_Y"]) []).
Proof.
  eexists. split; [vm_compute; reflexivity|]. split; [vm_compute; reflexivity|]. intros i Hi. cbn [length f_seeds Nat.pow Nat.mul Nat.add] in Hi.
  do 6 (destruct i as [|i]; [do 2 eexists; split; [reflexivity|]; split; vm_compute; reflexivity|]). lia.
Qed.

(** The same results listed basis by basis, which nothing checks, give 3/2. *)
Theorem C25_purity_order_refuted : exists rs f, Permutation rs (one_seed "0" ++ one_seed "1") /\ purity_fitter (Some rs) 3 [[1%Q]] None = (f, None) /\
  option_map Qred (raw_at f 0 0 0) = Some (3 # 2)%Q.
Proof.
  exists [nth 0 (one_seed "0") []; nth 0 (one_seed "1") []; nth 1 (one_seed "0") []; nth 1 (one_seed "1") []; nth 2 (one_seed "0") []; nth 2 (one_seed "1") []]. eexists.
  split; [|split; [vm_compute; reflexivity | vm_compute; reflexivity]]. cbn [nth one_seed app].
  apply perm_skip. etransitivity; [apply perm_swap|]. apply perm_skip. etransitivity; [|apply perm_swap || reflexivity].
  etransitivity; [apply perm_skip, perm_swap|]. etransitivity; [apply perm_swap|]. apply perm_swap.
Qed.
Print Assumptions C25_purity_order_refuted.
