(** C83: the bound of the accreditation fitter. *)
From Coq Require Import QArith Lqa.
From Verif Require Import LinAlg Base Cyc GateMat QSem CountsModel DihedralModel RBSeqModel RBSeqSpec RBSeqActProofs StdGates AccModel AccSpec AccFitSpec AccProbProofs AccTrapProofs AccErrSpec AccErrMainProofs AccErrRunProofs AccProperties AccErrProperties AccCredProofs.
Local Open Scope string_scope.
Local Open Scope list_scope.
Local Open Scope nat_scope.

(** What a run with target at [v] and random bits [bs] does, when errors [prep k] and [es k]
    strike circuit [k]: the fitter accepts it exactly if [accepts v bs]. *)
Definition decides {F} {HF : Fld F} (gmat : pystr -> list Q -> bits -> bits -> F) n tp L num (prep : nat -> nat -> bool) (es : nat -> list error) N (accepts : nat -> bits -> bool) : Prop :=
  forall v, v <= num -> forall rnd bs, length bs = N -> exists out, generate_circuits tp L (chosen rnd 0 bs) num v = Ok (out, N) /\ length out = num + 1 /\
    (forall k circ postp, k <> v -> nth_error out k = Some (circ, postp) -> exists key, possible gmat n n (noisy n (prep k) (es k) (fun _ => false) circ) key) /\
    forall c ks w f, c_postp c = map snd out -> c_vzero c = v -> length ks = length out ->
    (forall k key circ postp, nth_error ks k = Some key -> nth_error out k = Some (circ, postp) ->
       c_counts c k = Ok [(key, 1%Z)] /\ (k = v -> is_key n key) /\ (k <> v -> possible gmat n n (noisy n (prep k) (es k) (fun _ => false) circ) key)) ->
    exists w' f', single_protocol_run (c_counts c) (c_postp c) (c_vzero c) w f = (w', f', None) /\ f_flag f' = accepts v bs /\ f_acc f' = (if accepts v bs then 1 else 0) + f_acc f.
(** The number of pairs of a position of the target among [vs] and of random bits for
    which the run is accepted. *)
Definition accepted (accepts : nat -> bits -> bool) (N : nat) (vs : list nat) : nat := list_sum (map (fun v => length (filter (accepts v) (cube N))) vs).

(** Over the num + 1 positions of the target and the values of the random bits, runs that are
    accepted although their target has an error or a wrong preparation are at most 27/16 out of
    num + 1, whichever circuits are struck. A run whose traps have no errors is accepted. *)
Theorem C83_struck_and_accepted {F} {HF : Fld F} gmat r i n tp g2 ops L num (prep : nat -> nat -> bool) (es : nat -> list error) struck :
  std_gates gmat r i -> transpiles gmat n tp -> Forall (native n) ops -> measures_all n ops -> g2 = str "cx" \/ g2 = str "cz" ->
  layer_parser tp g2 n ops = Ok L -> (forall k, length (es k) = length (ly_two L)) -> NoDup struck -> Forall (fun k => k <= num /\ erroneous n (prep k) (es k)) struck ->
  exists N accepts, decides gmat n tp L num prep es N accepts /\ 16 * accepted accepts N struck <= 27 * 2 ^ N /\
    (forall v bs, v <= num -> length bs = N -> (forall k, k <= num -> k <> v -> ~ erroneous n (prep k) (es k)) -> accepts v bs = true).
Proof. intros Hs Ht. exact (credibility gmat r i Hs n tp Ht g2 ops L num prep es struck). Qed.
Print Assumptions C83_struck_and_accepted.

(** Hence the bound of the fitter is right: if the acceptance it has seen, less theta, does
    not exceed the probability that a run is accepted, then the bound is at least the
    probability that the target of an accepted run is struck. *)
Theorem C83_bound_holds {F} {HF : Fld F} gmat r i n tp g2 ops L num (prep : nat -> nat -> bool) (es : nat -> list error) struck :
  std_gates gmat r i -> transpiles gmat n tp -> Forall (native n) ops -> measures_all n ops -> g2 = str "cx" \/ g2 = str "cz" ->
  layer_parser tp g2 n ops = Ok L -> (forall k, length (es k) = length (ly_two L)) -> NoDup struck -> Forall (fun k => k <= num /\ erroneous n (prep k) (es k)) struck ->
  exists N accepts, decides gmat n tp L num prep es N accepts /\
    (forall v bs, v <= num -> length bs = N -> (forall k, k <= num -> k <> v -> ~ erroneous n (prep k) (es k)) -> accepts v bs = true) /\
    let all := accepted accepts N (seq 0 (num + 1)) in
    forall theta f f', f_runs f <> 0 -> f_traps f = Z.of_nat num -> bound_variation_distance theta f = Ok f' ->
    let seen := (inject_Z (Z.of_nat (f_acc f)) / inject_Z (Z.of_nat (f_runs f)))%Q in
    (theta < seen)%Q -> (seen - theta <= inject_Z (Z.of_nat all) / inject_Z (Z.of_nat ((num + 1) * 2 ^ N)))%Q ->
    (inject_Z (Z.of_nat (accepted accepts N struck)) / inject_Z (Z.of_nat all) <= f_bound f')%Q.
Proof.
  intros Hs Ht Hn Hm Hg El Hes Hd He. destruct (C83_struck_and_accepted gmat r i n tp g2 ops L num prep es struck Hs Ht Hn Hm Hg El Hes Hd He) as (N & accepts & D & B & A).
  exists N, accepts. split; [exact D|]. split; [exact A|]. intros all theta f f' Hr Hf E seen Hth Hp. apply (bound_holds theta f f' num all (accepted accepts N struck) (2 ^ N)); auto.
  - clear. induction N; cbn; lia.
  - apply sum_sub; [exact Hd|]. eapply Forall_impl; [|exact He]. cbn. intros k [Hk _]. lia.
Qed.
Print Assumptions C83_bound_holds.

(** The constant of the fitter is 1.7; 27/16 is attained by three or four struck circuits
    if each trap misses its errors with probability 3/4. *)
Theorem C83_constant : (27 # 16 < 17 # 10)%Q /\ 16 * (3 * 3 ^ 2) = 27 * 4 ^ 2 /\ 16 * (4 * 3 ^ 3) = 27 * 4 ^ 3 /\ forall h, 16 * (S h * 3 ^ h) <= 27 * 4 ^ h.
Proof. repeat split; try reflexivity. exact (credit 0). Qed.
Print Assumptions C83_constant.

(** The circuit of C38 with three traps, all of its circuits struck. *)
Example C83_example : let es := [fun q => (q =? 2, q =? 2); fun _ => (false, false)] in
  exists L N accepts, layer_parser (fun c => c) (str "cx") 3 ex_ops = Ok L /\ decides ex_mat 3 (fun c => c) L 3 (fun _ _ => false) (fun _ => es) N accepts /\ 16 * accepted accepts N [0; 1; 2; 3] <= 27 * 2 ^ N.
Proof.
  cbv zeta. destruct (layer_parser (fun c => c) (str "cx") 3 ex_ops) as [L|] eqn:E; [|vm_compute in E; discriminate]. assert (Hl : length (ly_two L) = 2) by (vm_compute in E; injection E as <-; reflexivity).
  assert (He : Exists (nontrivial 3) [fun q => (q =? 2, q =? 2); fun _ => (false, false)]) by (constructor; exists 2; split; [lia|discriminate]).
  destruct (C83_struck_and_accepted ex_mat rsqrt2 (omega 2) 3 (fun c => c) (str "cx") ex_ops L 3 (fun _ _ => false) (fun _ => [fun q => (q =? 2, q =? 2); fun _ => (false, false)]) [0; 1; 2; 3] ex_std (ex_transpiles 3) ex_native ex_measures (or_introl eq_refl) E) as (N & accepts & D & Q & _).
  - intros _. symmetry. exact Hl.
  - apply (seq_NoDup 4 0).
  - repeat (apply Forall_cons; [split; [lia|left; exact He]|]); apply Forall_nil.
  - exists L, N, accepts. auto.
Qed.
(** A fitter that has accepted 90 of 100 runs with three traps. *)
Example C83_example_bound c : exists f', bound_variation_distance (1 # 10) {| f_runs := 100; f_flag := true; f_acc := 90; f_traps := 3%Z; f_bound := 1%Q; f_conf := c |} = Ok f' /\ (f_bound f' == 17 # 32)%Q.
Proof. eexists. split; [reflexivity|]. lazy. reflexivity. Qed.
(** One trap, and an error in the circuit at position 0 only: the hypotheses of
    [C83_bound_holds] are met by a fitter that has accepted 60 of 100 runs. *)
Example C83_example_bound_holds c : let es k := if k =? 0 then [fun q => (q =? 2, q =? 2); fun _ => (false, false)] else [fun _ => (false, false); fun _ => (false, false)] in
  let f := {| f_runs := 100; f_flag := true; f_acc := 60; f_traps := 1%Z; f_bound := 1%Q; f_conf := c |} in
  exists L N accepts f', layer_parser (fun c => c) (str "cx") 3 ex_ops = Ok L /\ decides ex_mat 3 (fun c => c) L 1 (fun _ _ => false) es N accepts /\
    bound_variation_distance (1 # 5) f = Ok f' /\ 0 < accepted accepts N [0] /\
    (inject_Z (Z.of_nat (accepted accepts N [0%nat])) / inject_Z (Z.of_nat (accepted accepts N (seq 0%nat 2%nat))) <= f_bound f')%Q.
Proof.
  intros es f. destruct (layer_parser (fun c => c) (str "cx") 3 ex_ops) as [L|] eqn:E; [|vm_compute in E; discriminate]. assert (Hl : length (ly_two L) = 2) by (vm_compute in E; injection E as <-; reflexivity).
  destruct (C83_bound_holds ex_mat rsqrt2 (omega 2) 3 (fun c => c) (str "cx") ex_ops L 1 (fun _ _ => false) es [0] ex_std (ex_transpiles 3) ex_native ex_measures (or_introl eq_refl) E) as (N & accepts & D & A & B).
  - intros k. rewrite Hl. unfold es. destruct (k =? 0); reflexivity.
  - repeat constructor. intros [].
  - apply Forall_cons; [|apply Forall_nil]. split; [lia|]. left. constructor. exists 2. split; [lia|discriminate].
  - assert (C0 : accepted accepts N [0] = 2 ^ N).
    { unfold accepted. cbn [map list_sum fold_right]. rewrite Nat.add_0_r, <- AccErrShapeProofs.cube_len. f_equal. rewrite (filter_ext_in (accepts 0) (fun _ => true)); [clear; induction (cube N) as [|x l IH]; [reflexivity|cbn; rewrite IH; reflexivity]|]. intros bs Hb. apply A; [lia|apply AccErrShapeProofs.cube_in, Hb|].
      intros k Hk Hk0. assert (k = 1) by lia. subst k. intros [H|(q & _ & H)]; [|discriminate]. unfold es in H. cbn in H. rewrite Exists_exists in H. destruct H as (e & [<-|[<-|[]]] & q & _ & H); congruence. }
    assert (P : 0 < 2 ^ N) by (clear; induction N; cbn; lia).
    assert (Ef : exists f', bound_variation_distance (1 # 5) f = Ok f') by (eexists; reflexivity). destruct Ef as [f' Ef].
    exists L, N, accepts, f'. split; [reflexivity|]. split; [exact D|]. split; [exact Ef|]. split; [lia|]. apply (B (1 # 5)%Q f f'); [| |exact Ef| |].
    + discriminate.
    + reflexivity.
    + reflexivity.
    + cbn [f_acc f_runs]. apply Qle_shift_div_l; [apply qn_pos; cbn [plus]; lia|]. fold (qn ((1 + 1) * 2 ^ N)) (qn (accepted accepts N (seq 0 (1 + 1)))). rewrite qn_mul.
      assert (L2 : (qn (2 ^ N) <= qn (accepted accepts N (seq 0 (1 + 1))))%Q) by (apply qn_le; rewrite <- C0; unfold accepted; cbn; lia). pose proof (qn_pos _ P) as P'. assert (V : (inject_Z (Z.of_nat 60) / inject_Z (Z.of_nat 100) - (1 # 5) == 2 # 5)%Q) by reflexivity. change (f_acc f) with 60. change (f_runs f) with 100. rewrite V. change (qn (1 + 1)) with (2 # 1)%Q. lra.
Qed.
