(** Properties C01-C05: counts dictionaries. *)
From Verif Require Import Base CountsModel CountsSpec CountsProofs.

(** ** C01 *)

(** Every kept outcome receives exactly the shots of the input outcomes that
    agree with it, shots are conserved, and (when something is summed over)
    the keys are exactly the kept outcomes of non-zero count, or all of them
    with [pad_zeros]. *)
Theorem C01_marginal_counts_exact :
  forall n c qs asc pad,
  valid_counts n c -> increasing_version asc qs -> (forall q, In q qs -> q < n) -> qs <> [] ->
  exists r, marginal_counts c (Some qs) pad = Ok r /\
    (forall y, dget0 r y = marginal_spec c asc y) /\
    total r = total c /\
    NoDup (map fst r) /\
    (forall y, In y (map fst r) -> length y = length qs /\ is_bits y) /\
    (length qs <> n -> forall y, In y (map fst r) <->
        (length y = length qs /\ is_bits y) /\ (pad = true \/ marginal_spec c asc y <> 0%Z)).
Proof. exact marginal_counts_exact_lemma. Qed.
Print Assumptions C01_marginal_counts_exact.

Definition ex_counts : counts :=
  [(str "01 1", 5%Z); (str "11 0", 7%Z); (str "01 0", 2%Z); (str "11 1", 0%Z)].
Example C01_example :
  valid_counts 3 ex_counts /\ increasing_version [0; 2] [2; 0] /\
  (forall q, In q [2; 0] -> q < 3) /\
  marginal_counts ex_counts (Some [2; 0]) false
  = Ok [(str "00", 2%Z); (str "01", 5%Z); (str "10", 7%Z)].
Proof.
  split; [solve_valid_counts | split; [split|split]].
  - repeat constructor.
  - apply perm_swap.
  - intros q Hq; cbn in Hq; intuition lia.
  - vm_compute; reflexivity.
Qed.

(** The default [meas_qubits=True] only removes the spaces from the keys. *)
Theorem C01_marginal_counts_default :
  forall n c pad, valid_counts n c ->
  exists r, marginal_counts c None pad = Ok r /\
    (forall y, dget0 r y = marginal_spec c (seq 0 n) y) /\
    map fst r = map (fun kv => strip (fst kv)) c /\ map snd r = map snd c.
Proof. exact marginal_counts_default_lemma. Qed.
Print Assumptions C01_marginal_counts_default.

(** Finding: when every qubit is kept, [pad_zeros=True] is ignored. *)
Theorem C01_pad_zeros_full_refuted :
  exists n c qs r y,
    valid_counts n c /\ increasing_version qs qs /\ (forall q, In q qs -> q < n) /\ qs <> [] /\
    marginal_counts c (Some qs) true = Ok r /\
    (length y = length qs /\ is_bits y) /\ ~ In y (map fst r).
Proof.
  exists 1, [(str "0", 4%Z)], [0], [(str "0", 4%Z)], (str "1").
  split; [solve_valid_counts|]. split; [split; [repeat constructor | reflexivity]|].
  split; [intros q [<-|[]]; lia|]. split; [discriminate|]. split; [reflexivity|].
  split; [split; [reflexivity | intros ch [<-|[]]; auto]|].
  intros [H|[]]; discriminate.
Qed.
Print Assumptions C01_pad_zeros_full_refuted.

(** ** C02 *)
Theorem C02_marginal_counts_compose :
  forall n c A ascA B ascB r1,
  valid_counts n c -> (forall k v, In (k, v) c -> (0 <= v)%Z) -> (0 < total c)%Z ->
  increasing_version ascA A -> (forall q, In q A -> q < n) -> A <> [] ->
  increasing_version ascB B -> (forall b, In b B -> b < length A) -> B <> [] ->
  marginal_counts c (Some A) false = Ok r1 ->
  exists r2 r3,
    marginal_counts r1 (Some B) false = Ok r2 /\
    marginal_counts c (Some (map (fun b => nth b ascA 0) B)) false = Ok r3 /\
    forall y, dget0 r2 y = dget0 r3 y.
Proof. exact marginal_counts_compose_lemma. Qed.
Print Assumptions C02_marginal_counts_compose.

Example C02_example :
  (do r1 <- marginal_counts ex_counts (Some [2; 0]) false; marginal_counts r1 (Some [1]) false)
  = Ok [(str "0", 7%Z); (str "1", 7%Z)] /\
  marginal_counts ex_counts (Some [2]) false = Ok [(str "0", 7%Z); (str "1", 7%Z)] /\
  (0 < total ex_counts)%Z.
Proof. vm_compute. auto. Qed.

(** ** C03 *)
Theorem C03_count_keys_enumerates_partial :
  forall n, 1 <= n ->
  length (count_keys n) = 2 ^ n /\ NoDup (count_keys n) /\
  (forall s, In s (count_keys n) <-> length s = n /\ is_bits s) /\
  (forall j, j < 2 ^ n -> binary_value 0 (nth j (count_keys n) []) = j).
Proof. exact count_keys_spec_lemma. Qed.
Print Assumptions C03_count_keys_enumerates_partial.

Example C03_example : count_keys 2 = [str "00"; str "01"; str "10"; str "11"].
Proof. reflexivity. Qed.

(** Finding: for no qubits the only key is ["0"], not the empty string. *)
Theorem C03_count_keys_zero_refuted :
  exists n s, In s (count_keys n) /\ length s <> n.
Proof. exists 0, (str "0"). split; [left; reflexivity | discriminate]. Qed.
Print Assumptions C03_count_keys_zero_refuted.

(** ** C04 *)
Theorem C04_combine_counts_pointwise :
  forall c1 c2,
  (forall k, dget0 (combine_counts c1 c2) k = (dget0 c1 k + shots_of c2 k)%Z) /\
  (forall k, In k (dkeys (combine_counts c1 c2)) <-> In k (dkeys c1) \/ In k (dkeys c2)) /\
  total (combine_counts c1 c2) = (total c1 + total c2)%Z /\
  (NoDup (map fst c1) -> NoDup (map fst (combine_counts c1 c2))).
Proof.
  exact (fun c1 c2 => conj (combine_counts_get0 c1 c2) (conj (combine_counts_keys c1 c2)
          (conj (combine_counts_total c1 c2) (combine_counts_NoDup c1 c2)))).
Qed.
Print Assumptions C04_combine_counts_pointwise.

Theorem C04_combine_counts_comm_assoc :
  forall a b c, NoDup (map fst a) -> NoDup (map fst b) -> NoDup (map fst c) ->
  (forall k, dget0 (combine_counts a b) k = dget0 (combine_counts b a) k) /\
  (forall k, dget0 (combine_counts (combine_counts a b) c) k
             = dget0 (combine_counts a (combine_counts b c)) k).
Proof. exact combine_counts_comm_assoc_lemma. Qed.
Print Assumptions C04_combine_counts_comm_assoc.

Example C04_example :
  combine_counts [(str "00", 3%Z); (str "01", 5%Z)] [(str "00", 4%Z); (str "10", 7%Z)]
  = [(str "00", 7%Z); (str "01", 5%Z); (str "10", 7%Z)].
Proof. reflexivity. Qed.

Theorem C04_build_counts_sum :
  forall l k, (forall c, In c l -> NoDup (map fst c)) ->
  dget0 (build_counts l) k = zsum (map (fun c => shots_of c k) l).
Proof. exact build_counts_sum_lemma. Qed.
Print Assumptions C04_build_counts_sum.

Theorem C04_build_counts_order_irrelevant :
  forall l l' k, (forall c, In c l -> NoDup (map fst c)) -> Permutation l l' ->
  dget0 (build_counts l) k = dget0 (build_counts l') k.
Proof. exact build_counts_perm_lemma. Qed.
Print Assumptions C04_build_counts_order_irrelevant.

Example C04_build_example :
  build_counts [[(str "1", 3%Z)]; [(str "0", 5%Z); (str "1", 1%Z)]; []]
  = [(str "1", 4%Z); (str "0", 5%Z)].
Proof. reflexivity. Qed.

(** Exact effect on the caller's objects: the first argument is overwritten by
    the sum and returned; every other object keeps its contents. *)
Theorem C04_combine_counts_effect :
  forall h a1 a2 c1 c2,
  nth_error h a1 = Some c1 -> nth_error h a2 = Some c2 ->
  exists h', combine_counts_heap h a1 a2 = Ok (h', a1) /\
    nth_error h' a1 = Some (combine_counts c1 c2) /\
    forall b, b <> a1 -> nth_error h' b = nth_error h b.
Proof. exact combine_counts_heap_effect_lemma. Qed.
Print Assumptions C04_combine_counts_effect.

(** Finding: the caller's first dictionary is modified. *)
Theorem C04_combine_counts_modifies_argument_refuted :
  exists h a1 a2 h' r,
    combine_counts_heap h a1 a2 = Ok (h', r) /\ nth_error h' a1 <> nth_error h a1.
Proof.
  exists [[(str "0", 1%Z)]; [(str "0", 2%Z)]], 0, 1. eexists _, _.
  split; [vm_compute; reflexivity | vm_compute; discriminate].
Qed.
Print Assumptions C04_combine_counts_modifies_argument_refuted.

(** ** C05 *)

(** What the function returns: the identity under the literal key ["00"], and
    the parity expectation of each subset under the *reversed* documented key;
    and nothing else. *)
Theorem C05_expectation_counts_reversed_partial :
  forall n c,
  valid_counts n c -> (forall k v, In (k, v) c -> strip k = k) ->
  exists d, expectation_counts c = Ok d /\
    dget d (str "00") = Some (total c) /\
    (forall s, s <> [] -> StronglySorted lt s -> (forall q, In q s -> q < n) ->
       dget d (rev (subset_key n s)) = Some (parity_spec c s)) /\
    (forall y, In y (dkeys d) <-> y = str "00" \/
       exists s, (s <> [] /\ StronglySorted lt s /\ (forall q, In q s -> q < n)) /\
                 y = rev (subset_key n s)).
Proof. exact expectation_counts_reversed_lemma. Qed.
Print Assumptions C05_expectation_counts_reversed_partial.

Example C05_example :
  expectation_counts [(str "01", 5%Z); (str "11", 7%Z); (str "00", 1%Z)]
  = Ok [(str "00", 13%Z); (str "10", (-11)%Z); (str "01", (-1)%Z); (str "11", 3%Z)].
Proof. vm_compute; reflexivity. Qed.

(** Finding: on two qubits the single-qubit entries are interchanged. *)
Theorem C05_expectation_counts_key_order_refuted :
  exists c d s, valid_counts 2 c /\ expectation_counts c = Ok d /\ (forall q, In q s -> q < 2) /\
    dget d (subset_key 2 s) <> Some (parity_spec c s).
Proof.
  exists [(str "01", 1%Z)]. eexists. exists [0].
  split; [|split; [vm_compute; reflexivity|split]].
  - solve_valid_counts.
  - intros q [<-|[]]; lia.
  - vm_compute. discriminate.
Qed.
Print Assumptions C05_expectation_counts_key_order_refuted.

(** Finding: for a number of qubits other than two the all-zeros key is
    missing. *)
Theorem C05_expectation_counts_identity_key_refuted :
  exists c d, valid_counts 3 c /\ expectation_counts c = Ok d /\ dget d (subset_key 3 []) = None.
Proof.
  exists [(str "010", 1%Z)]. eexists.
  split; [|split; vm_compute; reflexivity].
  solve_valid_counts.
Qed.
Print Assumptions C05_expectation_counts_identity_key_refuted.
