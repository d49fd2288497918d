(** The tensored mitigator (C31). *)
From Coq Require Import QArith QArith.Qcanon Lqa.
From Verif Require Import LinAlg Base ResultFacts CountsModel CountsSpec CountsProofs QcFacts ExpvalModel ExpvalSpec
  ExpvalProofs ExpvalVecProofs.
Open Scope nat_scope.

(** ** 2x2 matrices *)
Definition d2 (i j : bool) : Qc := if Bool.eqb i j then 1%Qc else 0%Qc.
Definition linv2 (b a : mat2) : Prop := forall i j, (b i false * a false j + b i true * a true j)%Qc = d2 i j.

Lemma inv2_spec a : invertible2 a -> exists b, inv2 a = Some b /\ linv2 b a /\ linv2 a b.
Proof.
  unfold invertible2. intros H. unfold inv2, det2. destruct (Qc_eqb_ok (a false false * a true true - a false true * a true false) 0) as [E|_].
  - exfalso. apply H, E.
  - eexists. split; [reflexivity|]. split; intros [] []; unfold d2; cbn [Bool.eqb]; field; exact H.
Qed.
Lemma mitigation2_spec pinv2 a : invertible2 a -> linv2 (mitigation2 pinv2 a) a /\ linv2 a (mitigation2 pinv2 a).
Proof. intros H. destruct (inv2_spec a H) as (b & Hb & H1 & H2). unfold mitigation2. rewrite Hb. auto. Qed.

(** ** Tensor products *)
Lemma half_even i : 2 * i / 2 = i. Proof. rewrite Nat.mul_comm. apply Nat.div_mul. lia. Qed.
Lemma half_odd i : (2 * i + 1) / 2 = i.
Proof. rewrite Nat.add_comm, Nat.mul_comm, Nat.div_add by lia. reflexivity. Qed.
Lemma odd_double i : Nat.odd (2 * i) = false.
Proof. rewrite <- Nat.negb_even, Nat.even_mul. reflexivity. Qed.
Lemma odd_double1 i : Nat.odd (2 * i + 1) = true.
Proof. rewrite <- Nat.negb_even, Nat.even_add, Nat.even_mul. reflexivity. Qed.
Lemma double_half i : i = 2 * (i / 2) + Nat.b2n (Nat.odd i).
Proof. rewrite (Nat.div_mod i 2) at 1 by lia. rewrite <- Nat.bit0_mod, Nat.bit0_odd. reflexivity. Qed.
Lemma half_lt i n : i < 2 ^ S n -> i / 2 < 2 ^ n.
Proof. intros H. apply Nat.div_lt_upper_bound; [lia|]. exact H. Qed.
Lemma eqb_half x x' : (x =? x') = Bool.eqb (Nat.odd x) (Nat.odd x') && (x / 2 =? x' / 2).
Proof.
  pose proof (double_half x) as Hx. pose proof (double_half x') as Hx'.
  destruct (Nat.eqb_spec x x') as [->|Hn].
  - rewrite Bool.eqb_reflx, Nat.eqb_refl. reflexivity.
  - destruct (Bool.eqb (Nat.odd x) (Nat.odd x')) eqn:Eo; [|reflexivity]. apply Bool.eqb_prop in Eo.
    destruct (Nat.eqb_spec (x / 2) (x' / 2)) as [Eh|]; [|reflexivity]. exfalso. apply Hn. rewrite Hx, Hx', Eo, Eh. reflexivity.
Qed.

Lemma tensor_product bs as' : Forall2 linv2 bs as' -> forall x x', x < 2 ^ length bs -> x' < 2 ^ length bs ->
  sum_lt (2 ^ length bs) (fun y => tensor_entry bs x y * tensor_entry as' y x')%Qc = if x =? x' then 1%Qc else 0%Qc.
Proof.
  unfold sum_lt. induction 1 as [|b a bs as' Hba Hr IH]; intros x x' Hx Hx'.
  - cbn in Hx, Hx'. replace x with 0 by lia. replace x' with 0 by lia. cbn. apply Qc_is_canon. reflexivity.
  - cbn [length] in *. rewrite qsum_bit. rewrite eqb_half.
    transitivity (fsum (map (fun i => d2 (Nat.odd x) (Nat.odd x') * (tensor_entry bs (x / 2) i * tensor_entry as' i (x' / 2)))%Qc
                            (seq 0 (2 ^ length bs)))).
    + apply qsum_ext. intros i _. cbn [tensor_entry]. rewrite half_even, half_odd, odd_double, odd_double1.
      rewrite <- Hba. ring.
    + rewrite qsum_mul, IH by (apply half_lt; assumption). unfold d2.
      destruct (Bool.eqb _ _), (_ =? _); cbn [andb]; ring.
Qed.

(** ** einsum *)
Lemma bval_snoc l b : bval (l ++ [b]) = 2 * bval l + Nat.b2n b.
Proof. unfold bval. rewrite fold_left_app. reflexivity. Qed.
Lemma bools_length n l : In l (bools n) -> length l = n.
Proof.
  revert l; induction n as [|n IH]; cbn; intros l H; [destruct H as [<-|[]]; reflexivity|].
  apply in_app_iff in H. destruct H as [H|H]; apply in_map_iff in H; destruct H as (l' & <- & H); cbn; f_equal; apply IH, H.
Qed.
Lemma bval_acc l acc : fold_left (fun acc b => 2 * acc + Nat.b2n b) l acc = acc * 2 ^ length l + bval l.
Proof.
  unfold bval. revert acc; induction l as [|b l IH]; intros acc; cbn [fold_left length Nat.pow]; [lia|].
  rewrite IH. rewrite (IH (2 * 0 + Nat.b2n b)). lia.
Qed.
Lemma map_add_seq k m : map (Nat.add k) (seq 0 m) = seq k m.
Proof.
  rewrite <- (Nat.add_0_r k) at 2. generalize 0 as s. induction m as [|m IH]; intros s; [reflexivity|]. cbn [seq map].
  f_equal. rewrite IH. f_equal. lia.
Qed.
Lemma bval_bools n : map bval (bools n) = seq 0 (2 ^ n).
Proof.
  induction n as [|n IH]; [reflexivity|]. cbn [bools]. rewrite map_app, !map_map.
  replace (2 ^ S n) with (2 ^ n + 2 ^ n) by (cbn [Nat.pow]; lia). rewrite seq_app. f_equal.
  - rewrite <- IH. apply map_ext. intros l. reflexivity.
  - cbn [Nat.add].
    transitivity (map (Nat.add (2 ^ n)) (map bval (bools n))).
    + rewrite map_map. apply map_ext_in. intros l Hl. apply bools_length in Hl.
      change (bval (true :: l)) with (fold_left (fun acc b => 2 * acc + Nat.b2n b) l 1). rewrite bval_acc, Hl. lia.
    + rewrite IH. apply map_add_seq.
Qed.

Lemma list_snoc {A} (l : list A) n : length l = S n -> exists l' a, l = l' ++ [a] /\ length l' = n.
Proof.
  intros H. destruct l as [|x l] using rev_ind; [discriminate|]. exists l, x. rewrite app_length in H. cbn in H.
  split; [reflexivity | lia].
Qed.

Lemma einsum_prod (mats : list mat2) xs out : length xs = length mats -> length out = length mats ->
  fprod (map (fun k => nth k (rev mats) (fun _ _ => 0%Qc) (nth k xs false) (nth k out false)) (seq 0 (length mats)))
  = tensor_entry mats (bval xs) (bval out).
Proof.
  revert xs out. induction mats as [|a mats IH]; intros xs out Hx Ho; [reflexivity|]. cbn [length] in *.
  destruct (list_snoc _ _ Hx) as (xs' & b & -> & Hx'). destruct (list_snoc _ _ Ho) as (out' & o & -> & Ho').
  rewrite seq_S, map_app, qprod_app. cbn [map Nat.add]. rewrite qprod_cons. cbn [rev].
  rewrite !bval_snoc. cbn [tensor_entry].
  replace ((2 * bval xs' + Nat.b2n b) / 2) with (bval xs') by (destruct b; cbn [Nat.b2n]; rewrite ?Nat.add_0_r, ?half_even, ?half_odd; reflexivity).
  replace ((2 * bval out' + Nat.b2n o) / 2) with (bval out') by (destruct o; cbn [Nat.b2n]; rewrite ?Nat.add_0_r, ?half_even, ?half_odd; reflexivity).
  replace (Nat.odd (2 * bval xs' + Nat.b2n b)) with b by (destruct b; cbn [Nat.b2n]; rewrite ?Nat.add_0_r, ?odd_double, ?odd_double1; reflexivity).
  replace (Nat.odd (2 * bval out' + Nat.b2n o)) with o by (destruct o; cbn [Nat.b2n]; rewrite ?Nat.add_0_r, ?odd_double, ?odd_double1; reflexivity).
  rewrite <- IH by assumption.
  rewrite (map_ext_in _ (fun k => nth k (rev mats) (fun _ _ => 0%Qc) (nth k xs' false) (nth k out' false))).
  2:{ intros k Hk. apply in_seq in Hk. rewrite !app_nth1 by (rewrite ?rev_length; lia). reflexivity. }
  assert (E1 : nth (length mats) (rev mats ++ [a]) (fun _ _ => 0%Qc) = a) by (rewrite app_nth2; rewrite rev_length; [rewrite Nat.sub_diag|]; auto).
  assert (E2 : nth (length mats) (xs' ++ [b]) false = b) by (rewrite <- Hx'; rewrite app_nth2 by lia; rewrite Nat.sub_diag; reflexivity).
  assert (E3 : nth (length mats) (out' ++ [o]) false = o) by (rewrite <- Ho'; rewrite app_nth2 by lia; rewrite Nat.sub_diag; reflexivity).
  rewrite E1, E2, E3. change (fprod []) with 1%Qc. ring.
Qed.

Lemma einsum_ok n (mats : list mat2) d : length mats = n -> length d = 2 ^ n ->
  einsum n (mats : list mat2) d = Ok (map (fun y => sum_lt (2 ^ n) (fun x => nth x d 0 * tensor_entry mats x y)%Qc) (seq 0 (2 ^ n))).
Proof.
  intros Hm Hd. unfold einsum. rewrite Hd, Nat.eqb_refl, Hm, Nat.ltb_irrefl. f_equal.
  rewrite <- (bval_bools n) at 1. rewrite map_map. apply map_ext_in. intros out Ho. apply bools_length in Ho.
  unfold einsum_entry, sum_lt. rewrite <- (bval_bools n), map_map. apply qsum_ext. intros xs Hx. apply bools_length in Hx.
  rewrite Hm, Nat.sub_diag. cbn [bools map]. rewrite qsum_cons. change (fsum []) with 0%Qc. rewrite app_nil_r.
  change (tensor_entry mats (bval xs) (bval out)) with (tensor_entry (mats : list mat2) (bval xs) (bval out)). rewrite <- (einsum_prod mats xs out (eq_trans Hx (eq_sym Hm)) (eq_trans Ho (eq_sym Hm))). replace (length mats) with n by (symmetry; exact Hm). rewrite Qcplus_comm, Qcplus_0_l. f_equal. f_equal.
  apply map_ext_in. intros k Hk. apply in_seq in Hk. rewrite app_nth1 by lia. rewrite app_nth2 by lia.
  replace (n + k - length xs) with k by lia. reflexivity.
Qed.

(** ** Sums over outcomes *)
Lemma bvsel_lt n c clbits sel k v : well_formed n c clbits sel -> In (k, v) c -> binary_value 0 (outcome_sel sel k) < 2 ^ n.
Proof.
  intros [Hn Hw] Ha. assert (Hl : length (outcome_sel sel k) = n); [|rewrite <- Hl; apply binary_value_lt].
  destruct clbits as [qs|], sel as [asc|]; try contradiction; cbn [outcome_sel].
  - destruct Hw as (m & _ & [_ Hp] & _ & Hl). rewrite outcome_on_length, (Permutation_length Hp). exact Hl.
  - destruct Hw as [(_ & _ & Hv) _]. apply (Hv k v Ha).
Qed.

Lemma hits_sum n c clbits sel (g : nat -> Qc) : well_formed n c clbits sel ->
  fsum (map (fun i => iz (hits c sel i) * g i)%Qc (seq 0 (2 ^ n)))
  = fsum (map (fun kv => iz (snd kv) * g (binary_value 0 (outcome_sel sel (fst kv))))%Qc c).
Proof.
  intros Hw. unfold hits.
  transitivity (fsum (map (fun i => fsum (map (fun kv : pystr * Z =>
      if eqb (binary_value 0 (outcome_sel sel (fst kv))) i then (iz (snd kv) * g i)%Qc else 0%Qc) c)) (seq 0 (2 ^ n)))).
  - apply qsum_ext. intros i _. rewrite iz_zsum, <- qsum_mul_r. apply qsum_ext. intros kv _.
    change (eqb (binary_value 0 (outcome_sel sel (fst kv))) i) with (binary_value 0 (outcome_sel sel (fst kv)) =? i).
    destruct (_ =? _); [reflexivity|]. rewrite iz_0. ring.
  - rewrite qsum_swap. apply qsum_ext. intros [k v] Ha. cbn [fst snd].
    rewrite (qsum_pick (seq 0 (2 ^ n)) (binary_value 0 (outcome_sel sel k)) (fun i => (iz v * g i)%Qc)); [reflexivity | apply seq_NoDup|].
    apply in_seq. pose proof (bvsel_lt n c clbits sel k v Hw Ha). lia.
Qed.

Lemma hits_total n c clbits sel : well_formed n c clbits sel -> zsum (map (hits c sel) (seq 0 (2 ^ n))) = total c.
Proof.
  intros Hw. apply iz_inj. rewrite iz_zsum. pose proof (hits_sum n c clbits sel (fun _ => 1%Qc) Hw) as H. cbv beta in H.
  transitivity (fsum (map (fun i => iz (hits c sel i) * 1)%Qc (seq 0 (2 ^ n)))); [apply qsum_ext; intros; ring|].
  rewrite H. unfold total. rewrite iz_zsum. apply qsum_ext. intros; ring.
Qed.

Lemma hits_nonneg c sel i : nonneg c -> (0 <= hits c sel i)%Z.
Proof.
  intros Hn. unfold hits. assert (H : forall kv, In kv c -> (0 <= snd kv)%Z) by (intros [k v]; apply Hn). clear Hn.
  induction c as [|[k v] c IH]; cbn [map zsum fst snd]; [lia|].
  pose proof (H (k, v) (or_introl eq_refl)). cbn [snd] in *. specialize (IH (fun kv Hkv => H kv (or_intror Hkv))).
  destruct (_ =? _); lia.
Qed.

(** Value and variance of mitigated coefficients [g]. *)
Lemma mitigated_core n c clbits sel (g : nat -> Qc) : well_formed n c clbits sel -> total c <> 0%Z ->
  exists v, expval_with_stddev (map g (seq 0 (2 ^ n))) (Some (map (freq c sel) (seq 0 (2 ^ n)))) (total c)
    = Ok (Some (mean_of (fun k => g (binary_value 0 (outcome_sel sel k))) c), v) /\
    ((0 < total c)%Z -> nonneg c ->
       v = (var_of (fun k => g (binary_value 0 (outcome_sel sel k))) c / ofZ (total c))%Qc) /\ (0 <= v)%Qc.
Proof.
  intros Hw HT.
  destruct (expval_core (hits c sel) g (total c) (seq 0 (2 ^ n)) (map (freq c sel) (seq 0 (2 ^ n)))) as (v & Hv & Hvv & H0);
    [apply (hits_total n c clbits sel Hw) | exact HT | reflexivity|].
  assert (Hm : wmean (fun a => iz (hits c sel a)) g (iz (total c)) (seq 0 (2 ^ n))
               = mean_of (fun k => g (binary_value 0 (outcome_sel sel k))) c).
  { unfold wmean, mean_of. f_equal. apply (hits_sum n c clbits sel g Hw). }
  exists v. rewrite Hv, Hm. split; [reflexivity|]. split; [|exact H0]. intros Hp Hn.
  rewrite (Hvv Hp (fun a _ => hits_nonneg c sel a Hn)). f_equal. unfold wvar, var_of. rewrite Hm. f_equal.
  set (m := mean_of (fun k => g (binary_value 0 (outcome_sel sel k))) c).
  apply (hits_sum n c clbits sel (fun i => ((g i - m) * (g i - m))%Qc) Hw).
Qed.

Lemma mean_freq n c clbits sel (g : nat -> Qc) : well_formed n c clbits sel -> total c <> 0%Z ->
  mean_of (fun k => g (binary_value 0 (outcome_sel sel k))) c = sum_lt (2 ^ n) (fun i => freq c sel i * g i)%Qc.
Proof.
  intros Hw HT. unfold mean_of. change ofZ with iz. rewrite <- (hits_sum n c clbits sel g Hw). unfold Qcdiv.
  rewrite <- qsum_mul_r. apply qsum_ext. intros i _. unfold freq. change ofZ with iz. field. apply iz_neq_0, HT.
Qed.

Lemma mapM_selected {A B} (f : A -> B) (all : list A) qubits ms : selected all qubits ms ->
  match qubits with Some qs => mapM (index_e (map f all)) qs | None => Ok (map f all) end = Ok (map f ms).
Proof.
  destruct qubits as [qs|]; cbn [selected]; [|intros ->; reflexivity].
  induction 1 as [|q a qs ms Hq Hr IH]; cbn [mapM map]; [reflexivity|].
  rewrite (index_ok _ _ (f a)) by (rewrite nth_error_map, Hq; reflexivity). cbn [bind]. rewrite IH. reflexivity.
Qed.

Lemma Forall2_map_l {A B C} (P : B -> C -> Prop) (f : A -> B) (l : list A) (m : list C) :
  Forall2 (fun a c => P (f a) c) l m -> Forall2 P (map f l) m.
Proof. induction 1; cbn; constructor; auto. Qed.
Lemma Forall2_map_r {A B C} (P : A -> C -> Prop) (f : B -> C) (l : list A) (m : list B) :
  Forall2 (fun a b => P a (f b)) l m -> Forall2 P l (map f m).
Proof. induction 1; cbn; constructor; auto. Qed.
Lemma Forall2_diag {A} (P : A -> A -> Prop) l : Forall (fun a => P a a) l -> Forall2 P l l.
Proof. induction 1; constructor; auto. Qed.

Lemma mitigation_linv pinv2 ms : Forall invertible2 ms ->
  Forall2 linv2 (map (mitigation2 pinv2) ms) ms /\ Forall2 linv2 ms (map (mitigation2 pinv2) ms).
Proof.
  intros H. split; [apply Forall2_map_l | apply Forall2_map_r]; apply Forall2_diag;
  (eapply Forall_impl; [|exact H]); intros a Ha; apply mitigation2_spec, Ha.
Qed.

(** The mitigated observable. *)
Definition tens_coeff pinv2 ms d n (y : nat) : Qc :=
  sum_lt (2 ^ n) (fun x => nth x d 0 * tensor_entry (map (mitigation2 pinv2) ms) x y)%Qc.

Lemma tens_coeff_spec pinv2 ms d n x : length ms = n -> Forall invertible2 ms -> x < 2 ^ n ->
  sum_lt (2 ^ n) (fun y => tens_coeff pinv2 ms d n y * tensor_entry ms y x)%Qc = nth x d 0%Qc.
Proof.
  intros Hl Hi Hx. unfold tens_coeff, sum_lt.
  transitivity (fsum (map (fun y => fsum (map (fun x' => (nth x' d 0 * tensor_entry (map (mitigation2 pinv2) ms) x' y * tensor_entry ms y x)%Qc)
     (seq 0 (2 ^ n)))) (seq 0 (2 ^ n)))).
  { apply qsum_ext. intros y _. rewrite <- qsum_mul_r. reflexivity. }
  rewrite qsum_swap.
  transitivity (fsum (map (fun x' => if eqb x x' then nth x' d 0%Qc else 0%Qc) (seq 0 (2 ^ n)))).
  - apply qsum_ext. intros x' Hx'. apply in_seq in Hx'.
    pose proof (tensor_product _ _ (proj1 (mitigation_linv pinv2 ms Hi)) x' x) as Hp.
    rewrite map_length, Hl in Hp. specialize (Hp ltac:(lia) Hx).
    transitivity (nth x' d 0 * sum_lt (2 ^ n) (fun y => tensor_entry (map (mitigation2 pinv2) ms) x' y * tensor_entry ms y x))%Qc.
    { unfold sum_lt. rewrite <- qsum_mul. apply qsum_ext. intros; ring. }
    rewrite Hp. change (eqb x x') with (x =? x'). rewrite (Nat.eqb_sym x). destruct (_ =? _); ring.
  - rewrite (qsum_pick (seq 0 (2 ^ n)) x (fun x' => nth x' d 0%Qc)); [reflexivity | apply seq_NoDup | apply in_seq; lia].
Qed.

Definition the_diagonal (diag : option (list Qc)) (n : nat) : list Qc :=
  match diag with Some d => d | None => z_diagonal (2 ^ n) end.

Lemma the_diagonal_length diag n : (forall d, diag = Some d -> length d = 2 ^ n) -> length (the_diagonal diag n) = 2 ^ n.
Proof.
  intros H. destruct diag as [d|]; cbn; [apply H; reflexivity|]. unfold z_diagonal. rewrite map_length, seq_length. reflexivity.
Qed.

Lemma tensored_expectation_lemma pinv2 amats ms c diag qubits n clbits sel :
  well_formed n c clbits sel -> total c <> 0%Z -> selected amats qubits ms -> length ms = n ->
  (forall d, diag = Some d -> length d = 2 ^ n) ->
  exists v, tensored_expectation (tensored_init pinv2 amats) c diag qubits clbits
    = Ok (Some (mean_of (fun k => tens_coeff pinv2 ms (the_diagonal diag n) n (binary_value 0 (outcome_sel sel k))) c), v) /\
    ((0 < total c)%Z -> nonneg c -> v = (var_of (fun k => tens_coeff pinv2 ms (the_diagonal diag n) n
        (binary_value 0 (outcome_sel sel k))) c / ofZ (total c))%Qc) /\ (0 <= v)%Qc.
Proof.
  intros Hw HT Hsel Hl Hd. unfold tensored_expectation. rewrite (counts_vector_plain n c clbits sel Hw HT).
  cbn [bind pv_n pv_vec pv_shots tensored_init tm_mats].
  rewrite (mapM_selected (mitigation2 pinv2) amats qubits ms Hsel). cbn [bind]. fold (the_diagonal diag n).
  rewrite einsum_ok; [|rewrite map_length; exact Hl | apply the_diagonal_length, Hd]. cbn [bind].
  apply (mitigated_core n c clbits sel (tens_coeff pinv2 ms (the_diagonal diag n) n) Hw HT).
Qed.

Lemma exact_from_coeff n (g p : nat -> Qc) d (A : nat -> nat -> Qc) c sel clbits :
  well_formed n c clbits sel -> total c <> 0%Z ->
  (forall x, x < 2 ^ n -> sum_lt (2 ^ n) (fun y => g y * A y x)%Qc = nth x d 0%Qc) ->
  (forall y, y < 2 ^ n -> freq c sel y = sum_lt (2 ^ n) (fun x => A y x * p x)%Qc) ->
  mean_of (fun k => g (binary_value 0 (outcome_sel sel k))) c = sum_lt (2 ^ n) (fun x => nth x d 0 * p x)%Qc.
Proof.
  intros Hw HT Hg Hp. rewrite (mean_freq n c clbits sel g Hw HT). unfold sum_lt.
  transitivity (fsum (map (fun y => fsum (map (fun x => (g y * A y x * p x)%Qc) (seq 0 (2 ^ n)))) (seq 0 (2 ^ n)))).
  - apply qsum_ext. intros y Hy. apply in_seq in Hy. rewrite Hp by lia. unfold sum_lt.
    rewrite Qcmult_comm, <- qsum_mul. apply qsum_ext. intros; ring.
  - rewrite qsum_swap. apply qsum_ext. intros x Hx. apply in_seq in Hx. rewrite qsum_mul_r. f_equal.
    apply (Hg x). lia.
Qed.

Lemma tensored_exact_lemma pinv2 amats ms c diag qubits n clbits sel p :
  well_formed n c clbits sel -> total c <> 0%Z -> selected amats qubits ms -> length ms = n ->
  Forall invertible2 ms ->
  (forall d, diag = Some d -> length d = 2 ^ n) ->
  (forall y, y < 2 ^ n -> freq c sel y = sum_lt (2 ^ n) (fun x => tensor_entry ms y x * p x)%Qc) ->
  exists v, tensored_expectation (tensored_init pinv2 amats) c diag qubits clbits
    = Ok (Some (sum_lt (2 ^ n) (fun x => nth x (the_diagonal diag n) 0 * p x)%Qc), v) /\ (0 <= v)%Qc.
Proof.
  intros Hw HT Hsel Hl Hi Hd Hp.
  destruct (tensored_expectation_lemma pinv2 amats ms c diag qubits n clbits sel Hw HT Hsel Hl Hd) as (v & Hv & _ & H0).
  exists v. split; [|exact H0]. rewrite Hv. f_equal. f_equal. f_equal.
  apply (exact_from_coeff n _ p _ (tensor_entry ms) c sel clbits Hw HT); [|exact Hp].
  intros x Hx. apply tens_coeff_spec; assumption.
Qed.

(** The default diagonal is the parity. *)
Lemma ones_bin_odd i : 0 < i -> forall b : bool, ones (bin_str (N.of_nat (2 * i + Nat.b2n b))) = ones (bin_str (N.of_nat i)) + Nat.b2n b.
Proof.
  intros Hi b. replace (N.of_nat (2 * i + Nat.b2n b)) with (2 * N.of_nat i + (if b then 1 else 0))%N by (destruct b; cbn [Nat.b2n]; lia).
  rewrite bin_str_step by lia. unfold ones. rewrite filter_app, app_length. destruct b; reflexivity.
Qed.
Lemma qprod_seq_shift (f : nat -> Qc) n : fprod (map f (seq 1 n)) = fprod (map (fun b => f (S b)) (seq 0 n)).
Proof. rewrite <- seq_shift, map_map. reflexivity. Qed.

Lemma z_diagonal_parity n i : i < 2 ^ n -> sign_of (ones (bin_str (N.of_nat i))) = z_parity_index n i.
Proof.
  revert i; induction n as [|n IH]; intros i Hi.
  - cbn in Hi. replace i with 0 by lia. reflexivity.
  - unfold z_parity_index. cbn [seq map]. rewrite qprod_cons, qprod_seq_shift.
    assert (E : fprod (map (fun b => if Nat.testbit i (S b) then Qcopp 1 else 1%Qc) (seq 0 n)) = z_parity_index n (i / 2)).
    { unfold z_parity_index. f_equal. apply map_ext. intros b. change 2 with (2 ^ 1). rewrite Nat.div_pow2_bits, Nat.add_1_r. reflexivity. }
    rewrite E, <- IH by (apply half_lt, Hi). rewrite Nat.bit0_odd. pose proof (double_half i) as Hd.
    destruct (Nat.eq_dec (i / 2) 0) as [Hz|Hz].
    + rewrite Hz in *. destruct (Nat.odd i); cbn [Nat.b2n] in Hd; rewrite Hd; vm_compute; apply Qc_is_canon; reflexivity.
    + rewrite Hd at 1. rewrite ones_bin_odd by lia. unfold sign_of. destruct (Nat.odd i); cbn [Nat.b2n].
      * rewrite Nat.add_1_r, Nat.even_succ, <- Nat.negb_even. destruct (Nat.even _); cbn [negb]; ring.
      * rewrite Nat.add_0_r. ring.
Qed.

Lemma the_diagonal_none n i : i < 2 ^ n -> nth i (the_diagonal None n) 0%Qc = z_parity_index n i.
Proof.
  intros Hi. cbn. unfold z_diagonal.
  rewrite nth_indep with (d' := (fun i => sign_of (ones (bin_str (N.of_nat i)))) 0) by (rewrite map_length, seq_length; exact Hi).
  rewrite (map_nth (fun i => sign_of (ones (bin_str (N.of_nat i))))), seq_nth by exact Hi. apply z_diagonal_parity, Hi.
Qed.
