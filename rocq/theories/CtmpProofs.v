(** Proofs about the CTMP generator matrix and its sampling (for C34). *)
From Coq Require Import QArith QArith.Qcanon Reals Lqa.
From Verif Require Import LinAlg Base ResultFacts CountsModel CountsSpec CountsProofs QcFacts ExpvalModel ExpvalSpec ExpvalProofs ExpvalVecProofs
  ExpvalTensProofs ExpvalGammaProofs ExpvalCompProofs CtmpModel CtmpSpec.
Open Scope nat_scope.

(** ** Tensor products *)
Lemma kron_fold_r ps : forall ms dm, (forall i j, snd dm i j = tensor_entry ms i j) ->
  forall i j, snd (fold_left kron_r ps dm) i j = tensor_entry (rev ps ++ ms) i j.
Proof.
  induction ps as [|p ps IH]; intros ms [d m] H i j; cbn [fold_left rev]; [apply H|].
  rewrite <- app_assoc. cbn [app]. apply IH. intros i' j'. cbn [kron_r snd tensor_entry].
  cbn [snd] in H. rewrite H. ring.
Qed.
Lemma tensor_list_ok ms : ms <> [] -> exists dm, tensor_list (rev ms) = Ok dm /\ forall i j, snd dm i j = tensor_entry ms i j.
Proof.
  intros H. unfold tensor_list. destruct (rev ms) as [|p ps] eqn:E.
  - exfalso. apply H. rewrite <- (rev_involutive ms), E. reflexivity.
  - eexists. split; [reflexivity|]. intros i j. rewrite (kron_fold_r ps [p]).
    + f_equal. rewrite <- (rev_involutive ms), E. reflexivity.
    + intros i' j'. cbn. ring.
Qed.

Lemma testbit_S_half i k : Nat.testbit i (S k) = Nat.testbit (i / 2) k.
Proof. rewrite <- Nat.div2_div. reflexivity. Qed.

Lemma tensor_entry_prod ms : forall y x,
  tensor_entry ms y x = fprod (map (fun k => nth k ms eye2 (Nat.testbit y k) (Nat.testbit x k)) (seq 0 (length ms))).
Proof.
  induction ms as [|a ms IH]; intros y x; [reflexivity|].
  cbn [tensor_entry length seq map]. rewrite qprod_cons. cbn [nth]. rewrite !Nat.bit0_odd. f_equal.
  rewrite IH. rewrite <- seq_shift, map_map. f_equal. apply map_ext. intros k. rewrite !testbit_S_half. reflexivity.
Qed.

Lemma fprod_ind {A} (f : A -> bool) l : fprod (map (fun k => ind (f k)) l) = ind (forallb f l).
Proof.
  induction l as [|a l IH]; [reflexivity|]. cbn [map forallb]. rewrite qprod_cons, IH. destruct (f a); cbn [ind andb]; ring.
Qed.

(** ** The factors of a generator *)
Lemma bit_of_ok c : c = "0"%char \/ c = "1"%char -> bit_of c = Ok (is_one c).
Proof. intros [-> | ->]; reflexivity. Qed.
Lemma ket_bra_ok x y : (x = "0"%char \/ x = "1"%char) -> (y = "0"%char \/ y = "1"%char) ->
  ket_bra x y = Ok (fun r c => if Bool.eqb r (is_one x) && Bool.eqb c (is_one y) then 1%Qc else 0%Qc).
Proof. intros Hx Hy. unfold ket_bra. rewrite !bit_of_ok by assumption. reflexivity. Qed.

Definition kb (b a : bool) : bool -> bool -> Qc := fun r c => if Bool.eqb r b && Bool.eqb c a then 1%Qc else 0%Qc.
Definition factor (b a : pystr) (gq : list nat) (q : nat) : bool -> bool -> Qc :=
  match position q gq with
  | Some m => kb (is_one (nth m b "0"%char)) (is_one (nth m a "0"%char))
  | None => eye2
  end.

Lemma set_at_length {A} (l : list A) i v : i < length l -> length (set_at l i v) = length l.
Proof. intros H. unfold set_at. rewrite app_length, firstn_length. cbn [length]. rewrite skipn_length. lia. Qed.
Lemma set_at_nth {A} (l : list A) i v k d : i < length l -> nth k (set_at l i v) d = if k =? i then v else nth k l d.
Proof.
  intros H. unfold set_at. destruct (Nat.eqb_spec k i) as [->|Hn].
  - rewrite app_nth2; rewrite firstn_length; [|lia]. replace (i - Nat.min i (length l)) with 0 by lia. reflexivity.
  - destruct (Nat.lt_ge_cases k i) as [Hk|Hk].
    + rewrite app_nth1 by (rewrite firstn_length; lia). rewrite <- (firstn_skipn i l) at 2. rewrite app_nth1; [reflexivity|]. rewrite firstn_length; lia.
    + rewrite app_nth2 by (rewrite firstn_length; lia). rewrite firstn_length. replace (k - Nat.min i (length l)) with (S (k - i - 1)) by lia. cbn [nth].
      rewrite <- (firstn_skipn (S i) l) at 2. rewrite app_nth2; rewrite firstn_length; [|lia]. f_equal. lia.
Qed.

Lemma list_index_pos (l : list nat) q : list_index l q = position q l.
Proof.
  induction l as [|a l IH]; [reflexivity|]. cbn [list_index position]. change (eqb a q) with (a =? q). rewrite (Nat.eqb_sym q a), IH. reflexivity.
Qed.
Lemma position_some q l m : position q l = Some m -> nth_error l m = Some q.
Proof.
  revert m; induction l as [|a l IH]; intros m; cbn [position]; [discriminate|].
  destruct (Nat.eqb_spec q a) as [->|]; [intros [= <-]; reflexivity|].
  destruct (position q l) as [k|]; [|discriminate]. intros [= <-]. cbn. apply IH. reflexivity.
Qed.
Lemma position_none q l : position q l = None <-> ~ In q l.
Proof.
  induction l as [|a l IH]; cbn [position]; [split; [intros _ [] | reflexivity]|].
  destruct (Nat.eqb_spec q a) as [->|Hn]; [split; [discriminate | intros H; exfalso; apply H; left; reflexivity]|].
  destruct (position q l) as [k|]; cbn [option_map].
  - split; [discriminate|]. intros H. exfalso. assert (~ In q l) by (intros Hi; apply H; right; exact Hi). apply IH in H0. discriminate.
  - split; [|reflexivity]. intros _ [->|Hi]; [contradiction|]. apply IH in Hi; [exact Hi | reflexivity].
Qed.

Lemma fold_factors qs : forall gq b a acc1 acc2, NoDup qs -> NoDup gq ->
  (forall q, In q gq -> In q qs) -> length b = length gq -> length a = length gq -> is_bits b -> is_bits a ->
  length acc1 = length qs -> length acc2 = length qs ->
  exists r1 r2, foldM (fun mats qc =>
      let '((q, (cb, ca)), _) := qc in
      match list_index qs q with
      | None => Err ValueError
      | Some idx =>
          do ba <- ket_bra cb ca; do aa <- ket_bra ca ca;
          Ok (set_at (fst mats) idx ba, set_at (snd mats) idx aa)
      end) (combine (combine gq (combine b a)) a) (acc1, acc2) = Ok (r1, r2) /\
    length r1 = length qs /\ length r2 = length qs /\
    forall k, k < length qs ->
      nth k r1 eye2 = match position (nth k qs 0) gq with Some _ => factor b a gq (nth k qs 0) | None => nth k acc1 eye2 end /\
      nth k r2 eye2 = match position (nth k qs 0) gq with Some _ => factor a a gq (nth k qs 0) | None => nth k acc2 eye2 end.
Proof.
  induction gq as [|q gq IH]; intros b a acc1 acc2 Hqs Hgq Hin Hb Ha Hbb Hba H1 H2.
  - exists acc1, acc2. cbn [combine foldM]. split; [reflexivity|]. split; [exact H1|]. split; [exact H2|]. intros k Hk. cbn [position]. auto.
  - destruct b as [|cb b]; [discriminate|]. destruct a as [|ca a]; [discriminate|]. cbn [combine foldM].
    rewrite list_index_pos. destruct (position q qs) as [idx|] eqn:Ei; [|apply position_none in Ei; exfalso; apply Ei, Hin; left; reflexivity].
    assert (Hcb : cb = "0"%char \/ cb = "1"%char) by (apply Hbb; left; reflexivity).
    assert (Hca : ca = "0"%char \/ ca = "1"%char) by (apply Hba; left; reflexivity).
    rewrite !ket_bra_ok by assumption. cbn [bind fst snd].
    apply position_some in Ei. assert (Hidx : idx < length qs) by (apply nth_error_Some; congruence).
    destruct (proj1 (NoDup_cons_iff _ _) Hgq) as [Hq Hgq'].
    change (fun r c : bool => if Bool.eqb r (is_one cb) && Bool.eqb c (is_one ca) then 1%Qc else 0%Qc) with (kb (is_one cb) (is_one ca)).
    change (fun r c : bool => if Bool.eqb r (is_one ca) && Bool.eqb c (is_one ca) then 1%Qc else 0%Qc) with (kb (is_one ca) (is_one ca)).
    destruct (IH b a (set_at acc1 idx (kb (is_one cb) (is_one ca))) (set_at acc2 idx (kb (is_one ca) (is_one ca)))) as (r1 & r2 & E & L1 & L2 & Hk); try assumption.
    + intros q' Hq'. apply Hin. right. exact Hq'.
    + cbn in Hb; lia.
    + cbn in Ha; lia.
    + intros c Hc. apply Hbb. right. exact Hc.
    + intros c Hc. apply Hba. right. exact Hc.
    + rewrite set_at_length; lia.
    + rewrite set_at_length; lia.
    + exists r1, r2. split; [exact E|]. split; [exact L1|]. split; [exact L2|]. intros k Hkl.
      destruct (Hk k Hkl) as [K1 K2]. rewrite K1, K2. clear K1 K2 Hk E. unfold factor. cbn [position].
      destruct (Nat.eqb_spec (nth k qs 0) q) as [Eq|Hn].
      * replace (position (nth k qs 0) gq) with (@None nat) by (symmetry; apply position_none; rewrite Eq; exact Hq).
        assert (k = idx) by (apply (proj1 (NoDup_nth_error qs) Hqs); [exact Hkl|]; rewrite Ei, (nth_error_nth' qs 0 Hkl); congruence).
        subst idx. rewrite !set_at_nth by lia. rewrite Nat.eqb_refl. cbn [nth]. auto.
      * destruct (position (nth k qs 0) gq) as [m|] eqn:Em; cbn [option_map]; [cbn [nth]; auto|].
        rewrite !set_at_nth by lia. replace (k =? idx) with false; [auto|]. symmetry. apply Nat.eqb_neq. intros ->. apply Hn.
        apply nth_error_nth. exact Ei.
Qed.

Definition factors (qs : list nat) (b a : pystr) (gq : list nat) : list (bool -> bool -> Qc) := map (factor b a gq) qs.

Lemma sends_factors qs b a gq y x : tensor_entry (factors qs b a gq) y x = ind (sends qs b a gq x y).
Proof.
  rewrite tensor_entry_prod. unfold factors, sends. rewrite map_length, <- fprod_ind. f_equal. apply map_ext_in. intros k Hk. apply in_seq in Hk.
  rewrite (nth_indep _ eye2 (factor b a gq 0)) by (rewrite map_length; lia). rewrite map_nth. unfold factor.
  destruct (position (nth k qs 0) gq) as [m|].
  - unfold kb, ind. rewrite andb_comm. reflexivity.
  - unfold eye2, ind. destruct (Nat.testbit y k), (Nat.testbit x k); reflexivity.
Qed.

Lemma nth_repeat' {A} (a : A) n k d : k < n -> nth k (repeat a n) d = a.
Proof. revert k; induction n as [|n IH]; intros [|k] H; cbn; try lia; [reflexivity | apply IH; lia]. Qed.

Lemma generator_to_matrix_ok g qs : qs <> [] -> NoDup qs -> transition (g_b g) (g_a g) (g_q g) -> (forall q, In q (g_q g) -> In q qs) ->
  exists m, generator_to_matrix g qs = Ok m /\
    forall y x, m y x = (ind (sends qs (g_b g) (g_a g) (g_q g) x y) - ind (sends qs (g_a g) (g_a g) (g_q g) x y))%Qc.
Proof.
  intros Hne Hqs (Hb & Ha & Hgq & Hbb & Hba) Hin. unfold generator_to_matrix.
  destruct (fold_factors qs (g_q g) (g_b g) (g_a g) (repeat eye2 (length qs)) (repeat eye2 (length qs))) as (r1 & r2 & E & L1 & L2 & Hk);
    try assumption; try apply repeat_length.
  rewrite E. cbn [bind fst snd].
  assert (F1 : r1 = factors qs (g_b g) (g_a g) (g_q g)).
  { apply (nth_ext _ _ eye2 (factor (g_b g) (g_a g) (g_q g) 0)); [unfold factors; rewrite map_length; exact L1|]. intros k Hkl. unfold factors. rewrite map_nth.
    rewrite (proj1 (Hk k ltac:(lia))). destruct (position (nth k qs 0) (g_q g)) eqn:Ep; [reflexivity|]. unfold factor. rewrite Ep. apply nth_repeat'. lia. }
  assert (F2 : r2 = factors qs (g_a g) (g_a g) (g_q g)).
  { apply (nth_ext _ _ eye2 (factor (g_a g) (g_a g) (g_q g) 0)); [unfold factors; rewrite map_length; exact L2|]. intros k Hkl. unfold factors. rewrite map_nth.
    rewrite (proj2 (Hk k ltac:(lia))). destruct (position (nth k qs 0) (g_q g)) eqn:Ep; [reflexivity|]. unfold factor. rewrite Ep. apply nth_repeat'. lia. }
  destruct (tensor_list_ok r1) as (d1 & E1 & V1); [intros ->; destruct qs; [congruence | discriminate]|].
  destruct (tensor_list_ok r2) as (d2 & E2 & V2); [intros ->; destruct qs; [congruence | discriminate]|].
  rewrite E1, E2. cbn [bind]. eexists. split; [reflexivity|]. intros y x. cbv beta. rewrite V1, V2, F1, F2, !sends_factors. reflexivity.
Qed.

Definition entries (ct : ctmp) : list (pystr * pystr * list nat * Qc) :=
  map (fun gr => (g_b (fst gr), g_a (fst gr), g_q (fst gr), snd gr)) (ct_gens ct).
Definition gens_ok (gens : list (pystr * pystr * list nat * Qc)) : Prop :=
  forall b a gq r, In (b, a, gq, r) gens -> transition b a gq.

Lemma generator_fold qs gens : qs <> [] -> NoDup qs ->
  (forall gr, In gr gens -> transition (g_b (fst gr)) (g_a (fst gr)) (g_q (fst gr))) ->
  forall acc, exists m, foldM (fun m gr =>
    if forallb (fun q => mem q qs) (g_q (fst gr)) then
      do t <- generator_to_matrix (fst gr) qs;
      Ok (fun i j => (m i j + snd gr * t i j)%Qc)
    else Ok m) gens acc = Ok m /\
    forall y x, m y x = (acc y x + rate_matrix qs (map (fun gr => (g_b (fst gr), g_a (fst gr), g_q (fst gr), snd gr)) gens) y x)%Qc.
Proof.
  intros Hne Hqs. induction gens as [|[g r] gens IH]; intros Ht acc.
  - exists acc. split; [reflexivity|]. intros y x. unfold rate_matrix. cbn [map]. change (fsum []) with 0%Qc. ring.
  - cbn [foldM fst snd map]. destruct (forallb (fun q => mem q qs) (g_q g)) eqn:Ef.
    + destruct (generator_to_matrix_ok g qs Hne Hqs) as (t & E & V).
      * exact (Ht (g, r) (or_introl eq_refl)).
      * intros q Hq. rewrite forallb_forall in Ef. apply mem_In. apply Ef, Hq.
      * rewrite E. cbn [bind]. destruct (IH ltac:(intros gr Hgr; apply Ht; right; exact Hgr) (fun i j => (acc i j + r * t i j)%Qc)) as (m & Em & Vm).
        exists m. split; [exact Em|]. intros y x. rewrite Vm. unfold rate_matrix. cbn [map]. rewrite qsum_cons, Ef, V. ring.
    + cbn [bind]. destruct (IH ltac:(intros gr Hgr; apply Ht; right; exact Hgr) acc) as (m & Em & Vm).
      exists m. split; [exact Em|]. intros y x. rewrite Vm. unfold rate_matrix. cbn [map]. rewrite qsum_cons, Ef. ring.
Qed.

(** The increasing list of the qubits in use. *)
Definition qubits_are (ct : ctmp) (qubits : option (list nat)) (asc : list nat) : Prop :=
  match qubits with Some qs => increasing_version asc qs | None => asc = seq 0 (ct_n ct) end /\ asc <> [].

Lemma asc_nodup asc qs : increasing_version asc qs -> NoDup asc.
Proof. intros [H _]. exact (asc_NoDup asc H). Qed.

Lemma the_qubits_ok ct qubits asc : qubits_are ct qubits asc -> the_qubits ct qubits = asc /\ NoDup asc /\ asc <> [].
Proof.
  intros [H Hne]. unfold the_qubits. destruct qubits as [qs|].
  - split; [apply sort_asc_ok; exact H|]. split; [|exact Hne]. exact (asc_nodup asc qs H).
  - subst asc. split; [reflexivity|]. split; [apply seq_NoDup | exact Hne].
Qed.

Lemma generator_matrix_lemma ct qubits asc : qubits_are ct qubits asc -> gens_ok (entries ct) ->
  exists g, generator_matrix ct qubits = Ok g /\ forall y x, g y x = rate_matrix asc (entries ct) y x.
Proof.
  intros H Hg. destruct (the_qubits_ok ct qubits asc H) as (E & Hnd & Hne). unfold generator_matrix. rewrite E.
  destruct (generator_fold asc (ct_gens ct) Hne Hnd) with (acc := fun _ _ : nat => 0%Qc) as (m & Em & Vm).
  - intros gr Hgr. apply (Hg _ _ _ (snd gr)). unfold entries. apply in_map_iff. exists gr. auto.
  - exists m. split; [exact Em|]. intros y x. rewrite Vm. unfold entries. ring.
Qed.

(** ** The Markov property *)
Lemma tensor_colsum_eq ms ms' : Forall2 (fun m m' : bool -> bool -> Qc => forall c, (m false c + m true c)%Qc = (m' false c + m' true c)%Qc) ms ms' ->
  forall x, sum_lt (2 ^ length ms) (fun y => tensor_entry ms y x) = sum_lt (2 ^ length ms) (fun y => tensor_entry ms' y x).
Proof.
  unfold sum_lt. induction 1 as [|m m' ms ms' Hm H IH]; intros x; [reflexivity|]. cbn [length].
  rewrite !qsum_bit. 
  rewrite (qsum_ext _ (fun i => (m false (Nat.odd x) + m true (Nat.odd x)) * tensor_entry ms i (x / 2)%nat)%Qc).
  - rewrite (qsum_ext (fun i => (tensor_entry (m' :: ms') (2 * i)%nat x + tensor_entry (m' :: ms') (2 * i + 1)%nat x)%Qc)
              (fun i => (m' false (Nat.odd x) + m' true (Nat.odd x)) * tensor_entry ms' i (x / 2)%nat)%Qc).
    + rewrite !qsum_mul. rewrite IH, Hm. reflexivity.
    + intros i _. cbn [tensor_entry]. rewrite half_even, half_odd, odd_double, odd_double1. ring.
  - intros i _. cbn [tensor_entry]. rewrite half_even, half_odd, odd_double, odd_double1. ring.
Qed.

Lemma sends_colsum qs b a gq x :
  sum_lt (2 ^ length qs) (fun y => ind (sends qs b a gq x y)) = sum_lt (2 ^ length qs) (fun y => ind (sends qs a a gq x y)).
Proof.
  unfold sum_lt. rewrite (qsum_ext _ (fun y => tensor_entry (factors qs b a gq) y x)) by (intros; rewrite sends_factors; reflexivity).
  rewrite (qsum_ext (fun y => ind (sends qs a a gq x y)) (fun y => tensor_entry (factors qs a a gq) y x)) by (intros; rewrite sends_factors; reflexivity).
  replace (length qs) with (length (factors qs b a gq)) by apply map_length.
  apply tensor_colsum_eq. unfold factors. apply Forall2_map_l, Forall2_map_r. apply Forall2_diag. apply Forall_forall. intros q _ c. unfold factor.
  destruct (position q gq) as [m|]; [|reflexivity].
  unfold kb. destruct (is_one (nth m b "0"%char)), (is_one (nth m a "0"%char)), c; cbn; ring.
Qed.

Lemma sends_stays qs a gq x y : sends qs a a gq x y = true -> x < 2 ^ length qs -> y < 2 ^ length qs -> x = y.
Proof.
  intros H Hx Hy. apply Nat.bits_inj. intros k. destruct (Nat.lt_ge_cases k (length qs)) as [Hk|Hk].
  - unfold sends in H. rewrite forallb_forall in H. specialize (H k ltac:(apply in_seq; lia)).
    destruct (position (nth k qs 0) gq) as [m|].
    + apply andb_prop in H as [H1 H2]. apply Bool.eqb_prop in H1, H2. congruence.
    + apply Bool.eqb_prop in H. exact H.
  - rewrite (testbit_lt x (length qs)), (testbit_lt y (length qs)) by assumption. reflexivity.
Qed.

Lemma rate_markov qs gens : (forall b a gq r, In (b, a, gq, r) gens -> (0 <= r)%Qc) -> markov_generator (2 ^ length qs) (rate_matrix qs gens).
Proof.
  intros Hr. split.
  - intros y x Hy Hx Hn. unfold rate_matrix. apply qsum_nonneg. intros [[[b a] gq] r] Hin.
    destruct (forallb _ gq); [|apply Qcle_refl]. apply Qc_mul_nonneg; [apply (Hr b a gq r Hin)|].
    replace (sends qs a a gq x y) with false.
    + unfold ind. destruct (sends qs b a gq x y); qlra.
    + symmetry. apply not_true_iff_false. intros Hs. apply Hn. symmetry. eapply sends_stays; eassumption.
  - intros x Hx. unfold sum_lt, rate_matrix. rewrite qsum_swap. apply qsum_zero'. intros [[[b a] gq] r] _.
    destruct (forallb _ gq); [|apply qsum_zero]. rewrite qsum_mul.
    rewrite (qsum_ext _ (fun y => (ind (sends qs b a gq x y) + (- (1)) * ind (sends qs a a gq x y))%Qc)) by (intros; ring).
    rewrite qsum_add, qsum_mul. fold (sum_lt (2 ^ length qs) (fun y => ind (sends qs b a gq x y))). fold (sum_lt (2 ^ length qs) (fun y => ind (sends qs a a gq x y))).
    rewrite sends_colsum. ring.
Qed.

Lemma qsum_split (d x : nat) (f : nat -> Qc) : x < d ->
  fsum (map f (seq 0 d)) = (f x + fsum (map (fun y => if y =? x then 0%Qc else f y) (seq 0 d)))%Qc.
Proof.
  intros Hx. rewrite (qsum_ext f (fun y => (if eqb x y then f y else 0) + (if (y =? x)%nat then 0 else f y))%Qc).
  - rewrite qsum_add. f_equal. apply qsum_pick; [apply seq_NoDup | apply in_seq; lia].
  - intros y _. change (eqb x y) with (x =? y). rewrite (Nat.eqb_sym x y). destruct (y =? x); ring.
Qed.

Lemma markov_diag d g x : markov_generator d g -> x < d -> (g x x <= 0)%Qc /\
  (g x x = 0%Qc -> forall y, y < d -> g y x = 0%Qc).
Proof.
  intros [H1 H2] Hx. specialize (H2 x Hx). unfold sum_lt in H2. rewrite (qsum_split d x _ Hx) in H2.
  assert (Hn : forall y, In y (seq 0 d) -> (0 <= (if y =? x then 0%Qc else g y x))%Qc).
  { intros y Hy. apply in_seq in Hy. destruct (Nat.eqb_spec y x); [apply Qcle_refl | apply H1; lia]. }
  pose proof (qsum_nonneg _ _ Hn) as Hs. cbv beta in Hs. split; [qlra|].
  intros H0 y Hy. destruct (Nat.eq_dec y x) as [->|Hyx]; [exact H0|].
  assert (Hle : (g y x <= 0)%Qc); [|pose proof (H1 y x Hy Hx Hyx); apply Qcle_antisym; assumption].
  rewrite (qsum_split d y _ Hy) in H2.
  replace (y =? x) with false in H2 by (symmetry; apply Nat.eqb_neq; exact Hyx).
  assert (Hn' : forall z, In z (seq 0 d) -> (0 <= (if z =? y then 0%Qc else if z =? x then 0%Qc else g z x))%Qc).
  { intros z Hz. destruct (z =? y); [apply Qcle_refl | apply Hn, Hz]. }
  pose proof (qsum_nonneg _ _ Hn') as Hs'. cbv beta in Hs'. rewrite H0 in H2. qlra.
Qed.

(** ** Noise strength and sampling matrix *)
Lemma noise_core ct qubits asc g : qubits_are ct qubits asc -> generator_matrix ct qubits = Ok g ->
  markov_generator (2 ^ length asc) g ->
  exists gamma, noise_strength ct qubits = Ok gamma /\ (0 <= gamma)%Qc /\ strength (2 ^ length asc) g gamma.
Proof.
  intros Hq Eg Hm. destruct (the_qubits_ok ct qubits asc Hq) as (E & _ & _). unfold noise_strength. rewrite Eg. cbn [bind]. rewrite E.
  set (d := 2 ^ length asc) in *. assert (Hd : 0 < d) by (unfold d; pose proof (Nat.pow_nonzero 2 (length asc)); lia).
  set (stored := filter _ _).
  assert (Hst : forall i j, In (i, j) stored <-> i < d /\ j < d /\ g i j <> 0%Qc).
  { intros i j. unfold stored. rewrite filter_In, in_prod_iff, !in_seq. cbn [fst snd]. unfold Qc_eqb. destruct (Qc_eq_dec (g i j) 0) as [H0|H0]; cbn [negb]; intuition (try lia; try discriminate; try contradiction). }
  assert (Hne : (0 <= 0)%Qc) by apply Qcle_refl.
  destruct stored as [|s0 srest] eqn:Es.
  - cbn [bind]. replace (Qc_ltb 0 0) with false by reflexivity. exists 0%Qc. split; [reflexivity|]. split; [exact Hne|].
    assert (Hz : forall x, x < d -> g x x = 0%Qc).
    { intros x Hx. destruct (Qc_eq_dec (g x x) 0) as [H0|H0]; [exact H0|]. exfalso. apply (proj2 (Hst x x)). auto. }
    split; [intros x Hx; rewrite (Hz x Hx); qlra|]. exists 0. split; [exact Hd|]. rewrite (Hz 0 Hd). ring.
  - rewrite <- Es in *. destruct (filter (fun ij => fst ij =? snd ij) stored) as [|ij l] eqn:Ef.
    + exfalso. destruct s0 as [i j]. assert (Hin : In (i, j) stored) by (rewrite Es; left; reflexivity). apply Hst in Hin as (Hi & Hj & H0).
      apply H0. apply (proj2 (markov_diag d g j Hm Hj)); [|exact Hi].
      destruct (Qc_eq_dec (g j j) 0) as [Hz|Hz]; [exact Hz|]. exfalso.
      assert (Hin : In (j, j) (filter (fun ij => fst ij =? snd ij) stored)) by (apply filter_In; split; [apply Hst; auto | cbn; apply Nat.eqb_refl]).
      rewrite Ef in Hin. destruct Hin.
    + assert (Hdiag : forall i j, In (i, j) (ij :: l) <-> i < d /\ i = j /\ g i i <> 0%Qc).
      { intros i j. rewrite <- Ef, filter_In, Hst. cbn [fst snd]. rewrite Nat.eqb_eq. split; [intros [(H1 & H2 & H3) ->]; auto | intros (H1 & <- & H3); auto]. }
      assert (Efold : fold_left (fun acc ij => Qc_max acc (- g (fst ij) (snd ij))%Qc) l (- g (fst ij) (snd ij))%Qc
        = fold_left Qc_max (map (fun ij => (- g (fst ij) (snd ij))%Qc) l) (- g (fst ij) (snd ij))%Qc).
      { generalize (- g (fst ij) (snd ij))%Qc. clear. induction l as [|a l IH]; intros q; cbn; [reflexivity | apply IH]. }
      cbn [bind]. rewrite Efold. destruct (max_fold (map (fun ij => (- g (fst ij) (snd ij))%Qc) l) (- g (fst ij) (snd ij))%Qc) as (M1 & M2 & M3).
      set (gamma := fold_left Qc_max _ _) in *.
      assert (Hge : forall x, x < d -> g x x <> 0%Qc -> (- g x x <= gamma)%Qc).
      { intros x Hx H0. assert (Hin : In (x, x) (ij :: l)) by (apply Hdiag; auto). destruct Hin as [->|Hin]; [exact M1|].
        apply M2. apply in_map_iff. exists (x, x). auto. }
      assert (Hex : exists x, x < d /\ gamma = (- g x x)%Qc).
      { destruct M3 as [M3|M3].
        - destruct ij as [i j]. destruct (proj1 (Hdiag i j) (or_introl eq_refl)) as (Hi & <- & _). exists i. auto.
        - apply in_map_iff in M3 as ([i j] & E3 & Hin). destruct (proj1 (Hdiag i j) (or_intror Hin)) as (Hi & <- & _). exists i. auto. }
      assert (H0 : (0 <= gamma)%Qc).
      { destruct Hex as (x & Hx & ->). pose proof (proj1 (markov_diag d g x Hm Hx)). qlra. }
      replace (Qc_ltb gamma 0) with false.
      * exists gamma. split; [reflexivity|]. split; [exact H0|]. split; [|exact Hex].
        intros x Hx. destruct (Qc_eq_dec (g x x) 0) as [Hz|Hz]; [rewrite Hz; qlra | apply Hge; assumption].
      * unfold Qc_ltb. destruct (Qclt_le_dec gamma 0) as [Hlt|]; [|reflexivity]. exfalso. qlra.
Qed.

Definition sampling (g : nat -> nat -> Qc) (gamma : Qc) (y x : nat) : Qc :=
  let e := if y =? x then 1%Qc else 0%Qc in if Qc_eqb gamma 0 then e else (e + g y x / gamma)%Qc.

Lemma delta_sum d x : x < d -> fsum (map (fun y => if y =? x then 1%Qc else 0%Qc) (seq 0 d)) = 1%Qc.
Proof.
  intros Hx. rewrite (qsum_ext _ (fun y => if eqb x y then 1%Qc else 0%Qc)).
  - apply (qsum_pick (seq 0 d) x (fun _ => 1%Qc)); [apply seq_NoDup | apply in_seq; lia].
  - intros y _. change (eqb x y) with (x =? y). rewrite Nat.eqb_sym. reflexivity.
Qed.

Lemma sampling_stochastic d g gamma : markov_generator d g -> (0 <= gamma)%Qc -> (forall x, x < d -> (- g x x <= gamma)%Qc) ->
  column_stochastic d (sampling g gamma).
Proof.
  intros [H1 H2] H0 Hs. unfold sampling. split.
  - intros y x Hy Hx. unfold Qc_eqb. destruct (Qc_eq_dec gamma 0) as [Hz|Hz].
    + destruct (y =? x); qlra.
    + assert (Hpos : (0 < gamma)%Qc) by (apply Qcle_lt_or_eq in H0 as [H0|H0]; [exact H0 | congruence]).
      destruct (Nat.eqb_spec y x) as [->|Hn].
      * assert (E : (1 + g x x / gamma)%Qc = ((gamma + g x x) / gamma)%Qc) by (field; exact Hz). rewrite E.
        apply Qc_div_nonneg; [|exact Hpos]. pose proof (Hs x Hx). qlra.
      * rewrite Qcplus_0_l. apply Qc_div_nonneg; [apply H1; assumption | exact Hpos].
  - intros x Hx. unfold sum_lt, Qc_eqb. destruct (Qc_eq_dec gamma 0) as [Hz|Hz]; [apply delta_sum; exact Hx|].
    rewrite qsum_add, delta_sum by exact Hx. unfold Qcdiv. rewrite qsum_mul_r. fold (sum_lt d (fun y => g y x)). rewrite (H2 x Hx). ring.
Qed.

(** ** Choices and walks *)
Lemma column_nth d b x : x < d -> nth_error (csc_columns d b) x
  = Some (flat_map (fun i => if Qc_eqb (b i x) 0 then [] else [(i, b i x)]) (seq 0 d)).
Proof. intros Hx. unfold csc_columns. rewrite nth_error_map, (nth_error_nth' _ 0) by (rewrite seq_length; exact Hx). rewrite seq_nth by exact Hx. reflexivity. Qed.

Lemma sum_lt_S m f : sum_lt (S m) f = (sum_lt m f + f m)%Qc.
Proof. unfold sum_lt. rewrite seq_S, map_app, qsum_app. cbn [map]. rewrite qsum_cons. change (fsum []) with 0%Qc. cbn [Nat.add]. ring. Qed.

Lemma choice_loop_ok (f : nat -> Qc) r n : forall start, (forall i, start <= i < start + n -> (0 <= f i)%Qc) ->
  (sum_lt start f <= r)%Qc -> (r < sum_lt (start + n) f)%Qc ->
  exists y, choice_loop (sum_lt start f) (flat_map (fun i => if Qc_eqb (f i) 0 then [] else [(i, f i)]) (seq start n)) r = Some y /\
    start <= y < start + n /\ (sum_lt y f <= r)%Qc /\ (r < sum_lt (S y) f)%Qc.
Proof.
  induction n as [|n IH]; intros start Hf Hl Hr.
  - exfalso. replace (start + 0) with start in Hr by lia. exact (Qclt_not_le _ _ Hr Hl).
  - cbn [seq flat_map]. unfold Qc_eqb at 1. destruct (Qc_eq_dec (f start) 0) as [Hz|Hz].
    + cbn [app]. assert (E : sum_lt (S start) f = sum_lt start f) by (rewrite sum_lt_S, Hz; ring).
      rewrite <- E. destruct (IH (S start)) as (y & Ey & Hy & H).
      * intros i Hi. apply Hf. lia.
      * rewrite E. exact Hl.
      * replace (S start + n) with (start + S n) by lia. exact Hr.
      * exists y. split; [exact Ey|]. split; [lia | exact H].
    + cbn [app choice_loop]. rewrite <- sum_lt_S. unfold Qc_ltb. destruct (Qclt_le_dec r (sum_lt (S start) f)) as [Hlt|Hge].
      * exists start. split; [reflexivity|]. split; [lia|]. split; assumption.
      * destruct (IH (S start)) as (y & Ey & Hy & H).
        -- intros i Hi. apply Hf. lia.
        -- exact Hge.
        -- replace (S start + n) with (start + S n) by lia. exact Hr.
        -- exists y. split; [exact Ey|]. split; [lia | exact H].
Qed.

Lemma choice_step d b x r : column_stochastic d b -> x < d -> (0 <= r)%Qc -> (r < 1)%Qc ->
  exists y, y < d /\ moves_to b x r y /\
    choice (flat_map (fun i => if Qc_eqb (b i x) 0 then [] else [(i, b i x)]) (seq 0 d)) r = Ok y.
Proof.
  intros [H1 H2] Hx H0 Hr. destruct (choice_loop_ok (fun i => b i x) r d 0) as (y & Ey & Hy & H).
  - intros i Hi. apply H1; lia.
  - exact H0.
  - cbn [Nat.add]. rewrite H2 by exact Hx. exact Hr.
  - exists y. split; [lia|]. split; [exact H|]. unfold choice. change (sum_lt 0 (fun i => b i x)) with 0%Qc in Ey. rewrite Ey. reflexivity.
Qed.

Lemma sum_lt_mono d f i j : (forall k, k < d -> (0 <= f k)%Qc) -> i <= j -> j <= d -> (sum_lt i f <= sum_lt j f)%Qc.
Proof.
  intros Hf Hij Hjd. induction j as [|j IH]; [replace i with 0 by lia; apply Qcle_refl|].
  destruct (Nat.eq_dec i (S j)) as [->|Hn]; [apply Qcle_refl|]. rewrite sum_lt_S.
  pose proof (IH ltac:(lia) ltac:(lia)). pose proof (Hf j ltac:(lia)). qlra.
Qed.

Lemma moves_unique d b x r y y' : column_stochastic d b -> x < d -> y < d -> y' < d -> moves_to b x r y -> moves_to b x r y' -> y = y'.
Proof.
  intros [H1 _] Hx Hy Hy' [A1 A2] [B1 B2]. destruct (Nat.lt_trichotomy y y') as [Hlt|[He|Hlt]]; [|exact He|]; exfalso.
  - pose proof (sum_lt_mono d (fun z => b z x) (S y) y' ltac:(intros; apply H1; assumption) ltac:(lia) ltac:(lia)).
    apply (Qclt_not_le _ _ A2). eapply Qcle_trans; eassumption.
  - pose proof (sum_lt_mono d (fun z => b z x) (S y') y ltac:(intros; apply H1; assumption) ltac:(lia) ltac:(lia)).
    apply (Qclt_not_le _ _ B2). eapply Qcle_trans; eassumption.
Qed.

Lemma chain_walk d b (rs : list Qc) : column_stochastic d b -> Forall uniform rs ->
  forall alpha x pos, x < d -> pos + alpha <= length rs ->
  exists y, y < d /\ walk d b x (firstn alpha (skipn pos rs)) y /\ chain_steps (csc_columns d b) rs alpha x pos = Ok (y, pos + alpha).
Proof.
  intros Hb Hu. induction alpha as [|alpha IH]; intros x pos Hx Hp.
  - exists x. split; [exact Hx|]. split; [constructor|]. cbn [chain_steps]. f_equal. f_equal. lia.
  - cbn [chain_steps]. rewrite (index_ok _ _ _ (column_nth d b x Hx)). cbn [bind].
    assert (Hr : exists r, nth_error rs pos = Some r) by (destruct (nth_error rs pos) eqn:E; [eauto | apply nth_error_None in E; lia]).
    destruct Hr as (r & Er). rewrite (index_ok _ _ _ Er). cbn [bind].
    assert (Hur : uniform r) by (rewrite Forall_forall in Hu; apply Hu; eapply nth_error_In; exact Er).
    destruct (choice_step d b x r Hb Hx (proj1 Hur) (proj2 Hur)) as (y & Hy & Hm & Ec). rewrite Ec. cbn [bind].
    destruct (IH y (pos + 1) Hy ltac:(lia)) as (z & Hz & Hw & E). exists z. split; [exact Hz|]. split.
    + assert (Es : skipn pos rs = r :: skipn (pos + 1) rs).
      { clear -Er. revert rs Er. induction pos as [|pos IH]; intros [|a rs]; cbn; try discriminate; [intros [= ->]; reflexivity | apply IH]. }
      rewrite Es. cbn [firstn]. exact (walk_step d b x r y _ z Hy Hm Hw).
    + rewrite E. f_equal. f_equal. lia.
Qed.

Lemma skipn_add {A} (l : list A) p a : skipn (p + a) l = skipn a (skipn p l).
Proof. revert l; induction p as [|p IH]; intros [|x l]; cbn [Nat.add skipn]; [reflexivity | reflexivity | rewrite skipn_nil; reflexivity | apply IH]. Qed.

Lemma markov_chain_ok d b (rs : list Qc) : column_stochastic d b -> Forall uniform rs ->
  forall xs al pos, length xs = length al -> Forall (fun x => x < d) xs -> pos + list_sum al = length rs ->
  exists ys, markov_chain (csc_columns d b) rs (combine xs al) pos = Ok ys /\ runs d b xs al (skipn pos rs) ys /\ Forall (fun y => y < d) ys /\ length ys = length al.
Proof.
  intros Hb Hu. induction xs as [|x xs IH]; intros [|a al] pos Hl Hx Hp; try discriminate.
  - exists []. cbn in Hp. split; [reflexivity|]. rewrite skipn_all2 by lia. split; [constructor|]. split; [constructor | reflexivity].
  - apply Forall_cons_iff in Hx as [Hx Hxs]. change (list_sum (a :: al)) with (a + list_sum al) in Hp. cbn [combine markov_chain].
    destruct (chain_walk d b rs Hb Hu a x pos Hx ltac:(lia)) as (y & Hy & Hw & E). rewrite E. cbn [bind snd fst].
    destruct (IH al (pos + a) ltac:(cbn in Hl; lia) Hxs ltac:(lia)) as (ys & Em & Hr & Hys & Hly). rewrite Em. cbn [bind].
    exists (y :: ys). split; [reflexivity|]. split; [|split; [constructor; assumption | cbn [length]; lia]].
    replace (skipn pos rs) with (firstn a (skipn pos rs) ++ skipn (pos + a) rs).
    + constructor; [rewrite firstn_length, skipn_length; lia | exact Hw | exact Hr].
    + rewrite <- (firstn_skipn a (skipn pos rs)) at 2. f_equal. apply skipn_add.
Qed.
