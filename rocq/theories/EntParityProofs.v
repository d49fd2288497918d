(** The parity of counts, analysis.py:24-60 (C60). *)
From Coq Require Import QArith Lqa.
From Verif Require Import LinAlg Base CountsModel CountsSpec CountsProofs ResultFacts EntModel EntSpec.
Open Scope nat_scope.

Lemma all_bits_snoc n : all_bits (S n) = flat_map (fun s => [s ++ [ch0]; s ++ [ch1]]) (all_bits n).
Proof.
  induction n as [|n IH]; [reflexivity|]. change (all_bits (S (S n))) with (map (cons ch0) (all_bits (S n)) ++ map (cons ch1) (all_bits (S n))). rewrite IH at 1 2.
  cbn [all_bits]. rewrite flat_map_app. assert (E : forall c (l : list pystr), map (cons c) (flat_map (fun s => [s ++ [ch0]; s ++ [ch1]]) l) = flat_map (fun s => [s ++ [ch0]; s ++ [ch1]]) (map (cons c) l)).
  { intros c l. induction l as [|a l IHl]; [reflexivity|]. cbn. rewrite IHl. reflexivity. }
  rewrite !E. reflexivity.
Qed.
Lemma sign_snoc s c : is_bits [c] -> sign_of_key (s ++ [c]) = (if eqb c ch1 then - sign_of_key s else sign_of_key s)%Z.
Proof.
  intros Hc. unfold sign_of_key. rewrite count_occ_app. destruct (Hc c (or_introl eq_refl)) as [-> | ->].
  - replace (eqb "0"%char ch1) with false by reflexivity. cbn. rewrite Nat.add_0_r. reflexivity.
  - replace (eqb "1"%char ch1) with true by reflexivity. cbn. rewrite Nat.add_1_r, Nat.even_succ, <- Nat.negb_even. destruct (Nat.even _); reflexivity.
Qed.
Lemma pauli_z_signs n : 1 <= n -> pauli_z_diag n = map sign_of_key (all_bits n).
Proof.
  induction n as [|n IH]; intros Hn; [lia|]. destruct n as [|n]; [reflexivity|]. change (pauli_z_diag (S (S n))) with (flat_map (fun a => [a; - a]%Z) (pauli_z_diag (S n))).
  rewrite IH by lia. rewrite (all_bits_snoc (S n)). generalize (all_bits (S n)) as l. induction l as [|s l IHl]; [reflexivity|]. cbn [map flat_map app]. rewrite IHl.
  rewrite (sign_snoc s ch0) by (intros c [<-|[]]; left; reflexivity). rewrite (sign_snoc s ch1) by (intros c [<-|[]]; right; reflexivity). reflexivity.
Qed.
Lemma combine_map {A} (f g : A -> Z) l : zsum (map (fun p => (fst p * snd p)%Z) (combine (map f l) (map g l))) = zsum (map (fun a => (f a * g a)%Z) l).
Proof. induction l as [|a l IH]; [reflexivity|]. cbn. rewrite IH. reflexivity. Qed.
Lemma dict_sum (l : list pystr) (g : pystr -> Z) : NoDup l -> forall c : list (pystr * Z), NoDup (map fst c) -> (forall k, In k (map fst c) -> In k l) ->
  zsum (map (fun s => (match dget c s with Some v => v | None => 0 end * g s)%Z) l) = zsum (map (fun kv => (snd kv * g (fst kv))%Z) c).
Proof.
  intros Hl c. induction c as [|[k v] c IH]; intros Hc Hin.
  - cbn. apply zsum_map_zero.
  - cbn [map fst] in Hc, Hin. apply NoDup_cons_iff in Hc. destruct Hc as [Hk Hc]. cbn [map zsum fst snd]. rewrite <- (IH Hc) by (intros; apply Hin; right; assumption).
    rewrite (zsum_map_ext _ (fun s => ((if eqb k s then (v * g s)%Z else 0) + match dget c s with Some v => v | None => 0 end * g s)%Z)).
    + rewrite zsum_map_add. f_equal. apply (zsum_pick l k (fun s => (v * g s)%Z)); [exact Hl|apply Hin; left; reflexivity].
    + intros s _. cbn [dget]. destruct (eqb_spec s k) as [->|Hn].
      * rewrite eqb_refl. assert (E : dget c k = None) by (apply dget_None; exact Hk). rewrite E. lia.
      * destruct (eqb_spec k s) as [->|_]; [contradiction|lia].
Qed.
Theorem parity_value (counts : list (pystr * Z)) n : 1 <= n -> NoDup (map fst counts) -> (forall k, In k (map fst counts) -> length k = n /\ is_bits k) ->
  composite_pauli_z_expvalue counts n = Ok (zsum (map (fun kv => (snd kv * sign_of_key (fst kv))%Z) counts)).
Proof.
  intros Hn Hc Hk. unfold composite_pauli_z_expvalue. set (get := fun s => match dget counts s with Some v => v | None => 0%Z end).
  assert (E : ordered_list_generator counts n = map get (all_bits n)).
  { rewrite <- (count_keys_all_bits n Hn). unfold count_keys. rewrite map_map. reflexivity. }
  rewrite E, (pauli_z_signs n Hn), !map_length, Nat.eqb_refl, combine_map. f_equal. unfold get. apply dict_sum; [apply all_bits_NoDup|exact Hc|].
  intros k Hin. apply all_bits_In, Hk, Hin.
Qed.
Theorem parity_none (counts : list (pystr * Z)) : composite_pauli_z_expvalue counts 0 = Err ValueError.
Proof. reflexivity. Qed.
