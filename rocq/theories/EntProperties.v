(** Properties C40, C41 and C60: entanglement circuits. *)
From Coq Require Import QArith Qcanon Qreals Reals Lra.
From Coquelicot Require Import Coquelicot.
From Verif Require Import LinAlg Base CountsModel CountsSpec ResultFacts QSem Cyc GateMat DihedralModel RBSeqModel RBSeqSpec CtmpSpec StdGates AccSpec EntModel EntSpec EntMqcProofs EntParityProofs EntLayoutProofs EntOrderSpec EntOrderProofs.
Local Open Scope string_scope. Local Open Scope list_scope. Local Open Scope nat_scope.

(** ** C40 *)

(** [get_ghz_simple] prepares r (|0..0> + |1..1>), whatever is measured; [r] is 1/sqrt 2. *)
Theorem C40_ghz_state : forall gmat r i, std_gates gmat r i -> forall n measure full circ,
  get_ghz_simple n measure full = Ok circ -> eqa n (final gmat n circ) (ghz r n).
Proof. intros gmat r i H n [|] full circ E; [exact (ghz_measured gmat r i H n full circ E)|exact (ghz_simple_state gmat r i H n full circ E)]. Qed.
Print Assumptions C40_ghz_state.

(** It succeeds for every positive number of qubits, and only for these. *)
Theorem C40_ghz_succeeds : forall n measure full, (1 <= n -> exists circ, get_ghz_simple n measure full = Ok circ) /\ (n = 0 -> get_ghz_simple n measure full = Err CircuitError).
Proof.
  intros n measure full. split; [|intros ->; reflexivity]. intros Hn. unfold get_ghz_simple, get_measurement_circ, register. destruct (Nat.eqb_spec n 0); [lia|]. cbn [bind]. destruct measure, full; eexists; reflexivity.
Qed.
Print Assumptions C40_ghz_succeeds.

(** The measured outcomes: all qubits, or the first one. *)
Theorem C40_ghz_outcomes : forall gmat r i, std_gates gmat r i -> forall n circ,
  get_ghz_simple n true true = Ok circ -> forall y, length y = n ->
  prob gmat sqmod n n circ (key_of y) = (if mem y [zeros n; ones n] then / 2 else 0)%R.
Proof. intros gmat r i H n circ. exact (ghz_simple_prob gmat r i H n circ). Qed.
Print Assumptions C40_ghz_outcomes.
Theorem C40_ghz_first_qubit : forall gmat r i, std_gates gmat r i -> forall n circ,
  get_ghz_simple n true false = Ok circ -> forall b, prob gmat sqmod n 1 circ (key_of [b]) = (/ 2)%R.
Proof. intros gmat r i H n circ. exact (ghz_simple_first gmat r i H n circ). Qed.
Print Assumptions C40_ghz_first_qubit.

(** Multiple quantum coherence: the probability of the ground state. *)
Theorem C40_mqc_ground : forall gmat r i, std_gates gmat r i -> forall n delta full circ,
  get_ghz_mqc n delta full = Ok circ -> u1_phase gmat delta (expi (Q2R delta)) ->
  prob gmat sqmod n (if full then n else 1) circ (key_of (zeros (if full then n else 1))) = ((1 + cos (INR n * Q2R delta)) / 2)%R.
Proof. intros gmat r i H n delta full circ. exact (mqc_prob gmat r i H n delta circ full). Qed.
Print Assumptions C40_mqc_ground.

(** The conditions hold for the usual gates over the complex numbers. *)
Example C40_gates : std_gates cgate chalf Ci /\ forall d, u1_phase cgate d (expi (Q2R d)).
Proof. exact (conj cgate_std cgate_u1). Qed.
Example C40_circuit : get_ghz_mqc 3 (1 # 7) true = Ok
  [CGate {| gname := str "h"; gparams := []; gqubits := [0] |}; cx_i 0 1; cx_i 1 2; CBarrier [0; 1; 2];
   gate1 "u1" [1 # 7] 0; gate1 "u1" [1 # 7] 1; gate1 "u1" [1 # 7] 2; gate1 "x" [] 0; gate1 "x" [] 1; gate1 "x" [] 2; CBarrier [0; 1; 2];
   cx_i 1 2; cx_i 0 1; CGate {| gname := str "h"; gparams := []; gqubits := [0] |}; CBarrier [0; 1; 2]; CMeasure 0 0; CMeasure 1 1; CMeasure 2 2].
Proof. reflexivity. Qed.
Example C40_three : exists circ, get_ghz_mqc 3 (1 # 7) true = Ok circ /\ prob cgate sqmod 3 3 circ (str "000") = ((1 + cos (INR 3 * Q2R (1 # 7))) / 2)%R.
Proof. eexists. split; [reflexivity|]. apply (mqc_prob cgate chalf Ci cgate_std 3 (1 # 7) _ true); [reflexivity|apply cgate_u1]. Qed.

(** ** C60 *)

(** Parity oscillations: the probability of every outcome, and the mean parity. *)
Theorem C60_po_outcomes : forall gmat r i, std_gates gmat r i -> forall n delta circ,
  get_ghz_po n delta = Ok circ \/ get_ghz_po_para n delta (- delta)%Q = Ok circ ->
  u2_phase gmat r [delta; (- delta)%Q] (expi (Q2R delta)) (expi (- Q2R delta)) ->
  forall y, length y = n -> prob gmat sqmod n n circ (key_of y) = ((1 + (-1) ^ (n - weight y) * cos (INR n * Q2R delta)) / 2 ^ n)%R.
Proof. intros gmat r i H n delta circ. exact (po_prob gmat r i H n delta circ). Qed.
Print Assumptions C60_po_outcomes.
Theorem C60_po_mean_parity : forall gmat r i, std_gates gmat r i -> forall n delta circ,
  get_ghz_po n delta = Ok circ \/ get_ghz_po_para n delta (- delta)%Q = Ok circ ->
  u2_phase gmat r [delta; (- delta)%Q] (expi (Q2R delta)) (expi (- Q2R delta)) ->
  fsum (map (fun y => ((-1) ^ weight y * prob gmat sqmod n n circ (key_of y))%R) (cube n)) = ((-1) ^ n * cos (INR n * Q2R delta))%R.
Proof. intros gmat r i H n delta circ. exact (po_parity gmat r i H n delta circ). Qed.
Print Assumptions C60_po_mean_parity.

(** [composite_pauli_z_expvalue]: the counts of even outcomes minus those of odd ones. *)
Theorem C60_parity_of_counts : forall (counts : list (pystr * Z)) n, 1 <= n -> NoDup (map fst counts) -> (forall k, In k (map fst counts) -> length k = n /\ is_bits k) ->
  composite_pauli_z_expvalue counts n = Ok (zsum (map (fun kv => (snd kv * sign_of_key (fst kv))%Z) counts)).
Proof. exact parity_value. Qed.
Print Assumptions C60_parity_of_counts.
Theorem C60_no_qubits : forall counts, composite_pauli_z_expvalue counts 0 = Err ValueError.
Proof. exact parity_none. Qed.
Print Assumptions C60_no_qubits.

Example C60_gates : forall d, u2_phase cgate chalf [d; (- d)%Q] (expi (Q2R d)) (expi (- Q2R d)).
Proof. exact cgate_u2. Qed.
Example C60_counts : composite_pauli_z_expvalue [(str "000", 40%Z); (str "110", 25%Z); (str "001", 10%Z); (str "111", 7%Z)] 3 = Ok 48%Z.
Proof. reflexivity. Qed.
Example C60_po_circuit : exists circ, get_ghz_po 2 (1 # 7) = Ok circ /\ prob cgate sqmod 2 2 circ (str "01") = ((1 + (-1) ^ 1 * cos (INR 2 * Q2R (1 # 7))) / 2 ^ 2)%R.
Proof. eexists. split; [reflexivity|]. apply (po_prob cgate chalf Ci cgate_std 2 (1 # 7) _ (or_introl eq_refl) (cgate_u2 _) [true; false]). reflexivity. Qed.

(** ** C41 *)

(** For a coupling map without repeated pairs in which qubit 0 is coupled (and
    in which every coupled pair has an error, if sorting is on), [get_tier_dict] is a
    schedule that spreads from a node with the most neighbours; the targets
    are, each once, the qubits at distance 1 to 51. *)
Theorem C41_tiers_partial : forall b, NoDup (b_cmap b) -> (exists q, coupled (b_cmap b) 0 q) ->
  (b_indicator b = true -> forall x y, coupled (b_cmap b) x y -> In [x; y] (map fst (b_gates b)) \/ In [y; x] (map fst (b_gates b))) ->
  exists root td, get_tier_dict b = Ok td /\ get_best_node (nodes_of (b_cmap b)) = Ok root /\ schedule (b_cmap b) root td /\
    (forall v l l', neighbours (b_cmap b) root l -> neighbours (b_cmap b) v l' -> l' <> [] -> length l' <= length l) /\
    (forall v, In v (map snd (edges_of td)) <-> v <> root /\ exists k, k <= 51 /\ walk (b_cmap b) k root v).
Proof. exact tier_dict_spec. Qed.
Print Assumptions C41_tiers_partial.

(** With sorting on, the gates of a control come in the order of the errors of its
    pairs. *)
Theorem C41_order : forall b td, (forall x, ~ coupled (b_cmap b) x x) -> b_indicator b = true -> get_tier_dict b = Ok td ->
  forall i j t t' p x y, In (i, t) td -> In (j, t') td -> i < j -> In (p, x) t -> In (p, y) t' -> nearer (b_gates b) p x y.
Proof. exact tier_dict_order. Qed.
Print Assumptions C41_order.

(** [get_ghz_layout n]: if at least [n >= 2] qubits are in reach, exactly [n] different
    qubits, connected by the coupled pairs of the gates, are entangled. *)
Theorem C41_layout_partial : forall (F : Type) (HF : Fld F) (gmat : pystr -> list Q -> bits -> bits -> F) r i, std_gates gmat r i ->
  forall b n barriered qs, NoDup (b_cmap b) -> (exists q, coupled (b_cmap b) 0 q) ->
  (b_indicator b = true -> forall x y, coupled (b_cmap b) x y -> In [x; y] (map fst (b_gates b)) \/ In [y; x] (map fst (b_gates b))) ->
  2 <= n ->
  (forall root, get_best_node (nodes_of (b_cmap b)) = Ok root -> NoDup qs /\ length qs = n /\ forall v, In v qs -> exists k, k <= 51 /\ walk (b_cmap b) k root v) ->
  exists root circ layout, get_best_node (nodes_of (b_cmap b)) = Ok root /\ get_ghz_layout b n barriered = Ok (circ, layout) /\
    length layout = n /\ NoDup layout /\ nth 0 layout 0 = root /\ (forall v, In v layout -> exists k, k <= 51 /\ walk (b_cmap b) k root v) /\
    (forall g, In g (gates circ) -> g = {| gname := str "h"; gparams := []; gqubits := [0] |} \/
       (exists c t, gname g = str "cx" /\ gqubits g = [c; t] /\ c < n /\ t < n /\ coupled (b_cmap b) (nth c layout 0) (nth t layout 0))) /\
    eqa n (final gmat n circ) (ghz r n).
Proof. intros F HF gmat r i H b n barriered qs. exact (layout_spec gmat r i H b n barriered qs). Qed.
Print Assumptions C41_layout_partial.

Definition e41_b : bconfig := {| b_cmap := [(0, 1); (1, 0); (1, 2); (3, 1); (3, 4)];
  b_gates := [([0], (1 # 100)%Q); ([0; 1], (3 # 100)%Q); ([1; 2], (1 # 100)%Q); ([1; 3], (2 # 100)%Q); ([4; 3], (5 # 100)%Q)]; b_indicator := true |}.
Example C41_tree : get_tier_dict e41_b = Ok [(0, [(1, 2)]); (1, [(1, 3)]); (2, [(1, 0); (3, 4)])].
Proof. vm_compute. reflexivity. Qed.
Example C41_tree_circuit : get_ghz_layout e41_b 4 false = Ok ([CGate {| gname := str "h"; gparams := []; gqubits := [0] |}; cx_i 0 1; cx_i 0 2; cx_i 0 3], [1; 2; 3; 0]).
Proof. vm_compute. reflexivity. Qed.
Example C41_tree_conditions : NoDup (b_cmap e41_b) /\ (exists q, coupled (b_cmap e41_b) 0 q) /\
  (forall x y, coupled (b_cmap e41_b) x y -> In [x; y] (map fst (b_gates e41_b)) \/ In [y; x] (map fst (b_gates e41_b))) /\
  get_best_node (nodes_of (b_cmap e41_b)) = Ok 1 /\ walk (b_cmap e41_b) 2 1 4.
Proof.
  split; [|split; [|split; [|split]]].
  - cbn. repeat constructor; cbn; intuition discriminate.
  - exists 1. left. cbn. auto.
  - intros x y [H|H]; cbn in H; repeat (destruct H as [H|H]; [injection H as <- <-; cbn; auto 10|]); destruct H.
  - vm_compute. reflexivity.
  - apply (walk_snoc _ 1 1 3 4); [apply (walk_snoc _ 0 1 1 3); [constructor|right; cbn; auto]|left; cbn; auto 10].
Qed.

Example C41_order_case : (forall x, ~ coupled (b_cmap e41_b) x x) /\ reported (b_gates e41_b) 2 1 = Some (1 # 100)%Q /\ reported (b_gates e41_b) 3 1 = Some (2 # 100)%Q.
Proof. split; [intros x [H|H]; cbn in H; intuition congruence|split; vm_compute; reflexivity]. Qed.
(** Not for all coupling maps.  With a repeated pair a qubit is a target
    twice, which undoes its entanglement, and qubit 3 is left out; qubits at a distance of more than 51 are left out; and when qubit 0 is not
    coupled the call fails. *)
Theorem C41_repeated_pair_refuted : get_tier_dict {| b_cmap := [(0, 1); (0, 1); (1, 2); (2, 3)]; b_gates := []; b_indicator := false |} =
  Ok [(0, [(1, 2)]); (1, [(1, 0)]); (2, [(1, 0)])].
Proof. vm_compute. reflexivity. Qed.
Print Assumptions C41_repeated_pair_refuted.
Definition long_path : list (nat * nat) := map (fun k => (k, S k)) (seq 0 60).
Theorem C41_distance_refuted : exists td, get_tier_dict {| b_cmap := long_path; b_gates := []; b_indicator := false |} = Ok td /\
  ~ In 60 (1 :: map snd (edges_of td)) /\ exists k, walk long_path k 1 60.
Proof.
  destruct (tier_dict_spec {| b_cmap := long_path; b_gates := []; b_indicator := false |}) as (root & td & R & Er & _ & _ & HT).
  - unfold long_path. cbn [b_cmap]. apply FinFun.Injective_map_NoDup; [intros a b H; congruence|apply seq_NoDup].
  - exists 1. left. unfold long_path. cbn. auto.
  - discriminate.
  - cbn [b_cmap] in *. assert (Er' : get_best_node (nodes_of long_path) = Ok 1) by (vm_compute; reflexivity). rewrite Er' in Er. injection Er as <-.
    exists td. split; [exact R|]. assert (C : forall a b, coupled long_path a b -> b <= S a).
    { intros a b [H|H]; unfold long_path in H; apply in_map_iff in H; destruct H as (k & E & _); injection E as <- <-; lia. }
    assert (W : forall k a b, walk long_path k a b -> b <= a + k) by (intros k a b H; induction H as [a|k a b c H IH Hc]; [lia|apply C in Hc; lia]). split.
    + intros [H|H]; [discriminate|]. apply HT in H. destruct H as (_ & k & Hk & H). apply W in H. lia.
    + exists 59. assert (G : forall m, m <= 59 -> walk long_path m 1 (S m)); [|apply (G 59); lia]. induction m as [|m IH]; intros Hm; [constructor|]. apply (walk_snoc _ m 1 (S m)); [apply IH; lia|]. left. unfold long_path. apply in_map_iff. exists (S m). split; [reflexivity|apply in_seq; lia].
Qed.
Print Assumptions C41_distance_refuted.
Theorem C41_qubit_0_refuted : get_tier_dict {| b_cmap := [(1, 2); (2, 3)]; b_gates := []; b_indicator := false |} = Err KeyError.
Proof. vm_compute. reflexivity. Qed.
Print Assumptions C41_qubit_0_refuted.

(** When fewer than [n] qubits are in reach the circuit is returned all the same, with idle
    qubits and a shorter layout: it does not prepare the GHZ state.  One qubit is an error. *)
Theorem C41_too_many_qubits_refuted : exists circ, get_ghz_layout {| b_cmap := [(0, 1); (2, 3)]; b_gates := []; b_indicator := false |} 3 false = Ok (circ, [0; 1]) /\
  ~ eqa 3 (final gate_mat 3 circ) (ghz rsqrt2 3).
Proof.
  eexists. split; [vm_compute; reflexivity|]. intros H. specialize (H [true; true; false] eq_refl). apply (f_equal cb) in H. apply (f_equal this) in H. vm_compute in H. discriminate.
Qed.
Print Assumptions C41_too_many_qubits_refuted.
Theorem C41_one_qubit_refuted : forall barriered, get_ghz_layout e41_b 1 barriered = Err IndexError.
Proof. intros [|]; vm_compute; reflexivity. Qed.
Print Assumptions C41_one_qubit_refuted.
