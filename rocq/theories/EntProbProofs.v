(** Probabilities of GHZ circuits (C40, C60). *)
From Coq Require Import QArith Qreals Reals Lra.
From Coquelicot Require Import Coquelicot.
From Verif Require Import LinAlg Base CountsModel ResultFacts QSem DihedralModel RBSeqModel RBSeqSpec RBSeqActProofs CtmpSpec StdGates AccSpec AccLayerProofs AccQotpProofs AccProbProofs EntModel EntSpec EntGhzProofs.
Open Scope nat_scope.

Section Gen.
Context {F : Type} {HF : Fld F}.
Add Field FldFieldG : fth.
Local Open Scope fld_scope.

Lemma fsum_two {A} (f : A -> F) l a b : NoDup l -> In a l -> In b l -> a <> b -> (forall x, In x l -> x <> a -> x <> b -> f x = 0) -> fsum (map f l) = f a + f b.
Proof.
  intros Hd Ha Hb Hab Hz. apply in_split in Ha. destruct Ha as (l1 & l2 & ->). 
  assert (Hb' : In b (l1 ++ l2)) by (apply in_app_iff in Hb; destruct Hb as [Hb|[Hb|Hb]]; [apply in_app_iff; auto|contradiction|apply in_app_iff; auto]).
  rewrite (fsum_perm _ (map f (a :: l1 ++ l2))) by (apply Permutation_map, Permutation_sym, Permutation_middle). cbn [map]. rewrite fsum_cons. f_equal.
  apply NoDup_remove in Hd. destruct Hd as [Hd Hn]. apply in_split in Hb'. destruct Hb' as (m1 & m2 & E). rewrite E in *.
  rewrite (fsum_perm _ (map f (b :: m1 ++ m2))) by (apply Permutation_map, Permutation_sym, Permutation_middle). cbn [map]. rewrite fsum_cons.
  rewrite fsum_map_zero'; [ring|]. intros x Hx. apply NoDup_remove in Hd. destruct Hd as [Hd Hn'].
  assert (Hx' : In x (l1 ++ l2)) by (rewrite E; apply in_app_iff in Hx; apply in_app_iff; cbn; tauto).
  apply Hz; [apply in_app_iff in Hx'; apply in_app_iff; cbn; tauto| |].
  - intros ->. apply Hn. rewrite <- E. exact Hx'.
  - intros ->. contradiction.
Qed.

(** ** Product states *)
Lemma fprod_cons (a : F) l : fprod (a :: l) = a * fprod l. Proof. reflexivity. Qed.
Lemma fprod_app (l l' : list F) : fprod (l ++ l') = fprod l * fprod l'.
Proof. induction l as [|a l IH]; cbn [app]; [change (fprod (@nil F)) with (1 : F); ring|]. rewrite !fprod_cons, IH. ring. Qed.
Lemma fprod_map_ext {A} (f g : A -> F) l : (forall a, In a l -> f a = g a) -> fprod (map f l) = fprod (map g l).
Proof. intros H. f_equal. apply map_ext_in, H. Qed.
Definition pstate (v : nat -> bool -> F) (n : nat) : amp F := fun x => fprod (map (fun j => v j (nth j x false)) (seq 0 n)).
Lemma fprod_split l (q : nat) : NoDup l -> In q l -> exists rest, (forall g : nat -> F, fprod (map g l) = g q * fprod (map g rest)) /\ ~ In q rest.
Proof.
  intros Hd Hq. apply in_split in Hq. destruct Hq as (l1 & l2 & ->). exists (l1 ++ l2). split; [|apply NoDup_remove_2 in Hd; exact Hd].
  intros g. rewrite !map_app. cbn [map]. rewrite !fprod_app, fprod_cons. ring.
Qed.
Variable gmat : pystr -> list Q -> bits -> bits -> F.
Lemma apply_pstate name ps q n v x : (q < n)%nat -> length x = n ->
  apply (op_of gmat {| gname := name; gparams := ps; gqubits := [q] |}) (pstate v n) x =
  pstate (fun j => if (j =? q)%nat then fun a => gmat name ps [a] [false] * v q false + gmat name ps [a] [true] * v q true else v j) n x.
Proof.
  intros Hq Hx. rewrite apply1. unfold pstate.
  destruct (fprod_split (seq 0 n) q (seq_NoDup n 0)) as (rest & Hr & Hn); [apply in_seq; lia|]. rewrite !Hr. rewrite Nat.eqb_refl.
  rewrite !nth_set1_eq by lia.
  assert (E : forall b, fprod (map (fun j => v j (nth j (set1 x q b) false)) rest) = fprod (map (fun j => v j (nth j x false)) rest)).
  { intros b. apply fprod_map_ext. intros j Hj. rewrite nth_set1_ne; [reflexivity|]. intros ->. contradiction. }
  rewrite !E. rewrite (fprod_map_ext (fun j => (if (j =? q)%nat then _ else v j) (nth j x false)) (fun j => v j (nth j x false)) rest); [ring|].
  intros j Hj. destruct (Nat.eqb_spec j q) as [->|_]; [contradiction|reflexivity].
Qed.
Lemma pstate_ext v v' n x : (forall j a, v j a = v' j a) -> pstate v n x = pstate v' n x.
Proof. intros H. apply fprod_map_ext. intros j _. apply H. Qed.
Lemma run_pstate name ps n : forall l v x, NoDup l -> (forall q, In q l -> (q < n)%nat) -> length x = n ->
  run (map (op_of gmat) (gates (map (gate1 name ps) l))) (pstate v n) x =
  pstate (fun j => if mem j l then fun a => gmat (str name) ps [a] [false] * v j false + gmat (str name) ps [a] [true] * v j true else v j) n x.
Proof.
  induction l as [|q l IH]; intros v x Hd Hl Hx; [reflexivity|]. apply NoDup_cons_iff in Hd. destruct Hd as [Hn Hd].
  cbn [map gates flat_map app run fold_left].
  transitivity (run (map (op_of gmat) (gates (map (gate1 name ps) l))) (apply (op_of gmat {| gname := str name; gparams := ps; gqubits := [q] |}) (pstate v n)) x); [reflexivity|].
  rewrite (run_ext n _ _ _ (fun y Hy => apply_pstate (str name) ps q n v y (Hl q (or_introl eq_refl)) Hy)) by exact Hx.
  rewrite IH by (auto; intros; apply Hl; right; assumption). apply pstate_ext. intros j a. unfold mem at 2. cbn [existsb]. fold (mem j l).
  destruct (Nat.eqb_spec j q) as [->|Hj].
  - apply mem_not_In in Hn. rewrite Hn, eqb_refl. reflexivity.
  - apply (proj2 (eqb_neq _ _)) in Hj. rewrite Hj. reflexivity.
Qed.
Lemma run_add c : forall (p q : amp F) x, run c (fun y => p y + q y) x = run c p x + run c q x.
Proof.
  induction c as [|o c IH]; intros p q x; [reflexivity|]. cbn [run fold_left]. rewrite <- IH. apply (run_ext (length x)); [|reflexivity]. intros y _.
  unfold apply. rewrite <- fsum_map_add. apply fsum_map_ext. intros b _. ring.
Qed.
Lemma seq_nth_map (x : bits) : map (fun j => nth j x false) (seq 0 (length x)) = x.
Proof.
  apply nth_ext with (d := false) (d' := false); [rewrite map_length, seq_length; reflexivity|]. rewrite map_length, seq_length. intros k Hk.
  rewrite (nth_indep _ false (nth 0 x false)) by (rewrite map_length, seq_length; exact Hk). rewrite (map_nth (fun j => nth j x false)). rewrite seq_nth by exact Hk. reflexivity.
Qed.
Lemma pstate_const (g : bool -> F) n x : length x = n -> pstate (fun _ => g) n x = fpow (g true) (weight x) * fpow (g false) (n - weight x).
Proof.
  intros Hx. unfold pstate. rewrite <- (map_map (fun j => nth j x false) g), <- Hx, seq_nth_map. unfold weight. clear Hx. induction x as [|b x IH]; [change ((1 : F) = fpow (g true) 0 * fpow (g false) 0); cbn [fpow]; ring|].
  cbn [map]. rewrite fprod_cons, IH. assert (L : (length (filter (fun b => b) x) <= length x)%nat) by (clear; induction x as [|[|] x IH]; cbn; lia).
  destruct b; cbn [filter length]; [cbn [fpow Nat.sub]; ring|]. rewrite Nat.sub_succ_l by exact L. cbn [fpow]. ring.
Qed.
Lemma ghz_pstate (r : F) n x : (0 < n)%nat -> length x = n ->
  ghz r n x = r * pstate (fun _ b => if b then 0 else 1) n x + r * pstate (fun _ b => if b then 1 else 0) n x.
Proof.
  intros Hn Hx. assert (W : forall (b0 : bool) y, fprod (map (fun b => if Bool.eqb b b0 then 1 else 0) y) = if eqb y (repeat b0 (length y)) then 1 else (0 : F)).
  { intros b0. induction y as [|b y IH]; [reflexivity|]. cbn [map length repeat]. rewrite fprod_cons, IH. destruct (Bool.eqb_spec b b0) as [->|Hb].
    - destruct (eqb_spec y (repeat b0 (length y))) as [E|E]; destruct (eqb_spec (b0 :: y) (b0 :: repeat b0 (length y))) as [E'|E']; try ring; [congruence|injection E' as E'; contradiction].
    - destruct (eqb_spec (b :: y) (b0 :: repeat b0 (length y))) as [E'|E']; [injection E' as E' _; contradiction|ring]. }
  assert (P : forall b0, pstate (fun _ b => if Bool.eqb b b0 then 1 else 0) n x = if eqb x (repeat b0 n) then 1 else (0 : F)).
  { intros b0. unfold pstate. rewrite <- (map_map (fun j => nth j x false) (fun b => if Bool.eqb b b0 then 1 else 0)), <- Hx, seq_nth_map. apply W. }
  rewrite (pstate_ext (fun _ b => if b then 0 else 1) (fun _ b => if Bool.eqb b false then 1 else 0)) by (intros j [|]; reflexivity).
  rewrite (pstate_ext (fun _ b => if b then 1 else 0) (fun _ b => if Bool.eqb b true then 1 else 0)) by (intros j [|]; reflexivity).
  rewrite !P. fold (zeros n). fold (ones n). unfold ghz. destruct (eqb_spec x (zeros n)) as [->|Hz].
  - destruct (eqb_spec (zeros n) (ones n)) as [E|_]; [symmetry in E; apply ones_neq in E; [contradiction|exact Hn]|]. replace (mem (zeros n) [zeros n; ones n]) with true; [ring|]. symmetry. apply mem_In. cbn; auto.
  - destruct (eqb_spec x (ones n)) as [->|Ho].
    + replace (mem (ones n) [zeros n; ones n]) with true; [ring|]. symmetry. apply mem_In. cbn; auto.
    + replace (mem x [zeros n; ones n]) with false; [ring|]. symmetry. apply mem_not_In. intros [E|[E|[]]]; subst x; contradiction.
Qed.

(** ** Parity oscillations *)
Variables r i : F.
Hypothesis Hstd : std_gates gmat r i.
Theorem po_final n edges ps e e' circ : (0 < n)%nat -> tree n edges -> u2_phase gmat r ps e e' -> gates circ = gates (had 0 :: cxs edges) ->
  forall x, length x = n -> run (map (op_of gmat) (gates (circ ++ on_all n "u2" ps))) (ground n) x =
    fpow r (S n) * (fpow e (weight x) + fpow (- e') (n - weight x)).
Proof.
  intros Hn HT Hu Hc x Hx. rewrite gates_app, map_app, run_app, Hc.
  rewrite (run_ext n _ _ _ (tree_ghz gmat r i Hstd n edges Hn HT)) by exact Hx.
  rewrite (run_ext n _ _ (fun y => r * pstate (fun _ b => if b then 0 else 1) n y + r * pstate (fun _ b => if b then 1 else 0) n y) (fun y Hy => ghz_pstate r n y Hn Hy)) by exact Hx.
  rewrite run_add. rewrite !(run_scale _ r _ n) by exact Hx. unfold on_all.
  assert (Hl : forall q, In q (seq 0 n) -> (q < n)%nat) by (intros q Hq; apply in_seq in Hq; lia).
  rewrite !(run_pstate "u2" ps n) by (auto; apply seq_NoDup).
  assert (E : forall v, pstate (fun j => if mem j (seq 0 n) then fun a => gmat (str "u2") ps [a] [false] * v false + gmat (str "u2") ps [a] [true] * v true else v) n x =
                        pstate (fun _ a => gmat (str "u2") ps [a] [false] * v false + gmat (str "u2") ps [a] [true] * v true) n x).
  { intros v. unfold pstate. apply fprod_map_ext. intros j Hj. apply mem_In in Hj. rewrite Hj. reflexivity. }
  rewrite (E (fun b => if b then 0 else 1)), (E (fun b => if b then 1 else 0)). rewrite !(pstate_const _ n x Hx), !(u2p _ _ _ _ _ Hu), (u2p_inv _ _ _ _ _ Hu).
  assert (W : (weight x <= n)%nat) by (rewrite <- Hx; unfold weight; clear; induction x as [|[|] x IH]; cbn; lia).
  assert (Pm : forall (a b : F) k, fpow (a * b) k = fpow a k * fpow b k) by (intros a b k; induction k as [|k IHk]; cbn [fpow]; [ring|rewrite IHk; ring]).
  assert (P1 : forall k, fpow (1 : F) k = 1) by (intros k; induction k as [|k IHk]; cbn [fpow]; [reflexivity|rewrite IHk; ring]).
  replace (r * e * 1 + r * 1 * 0) with (r * e) by ring. replace (r * 1 * 1 + r * - e' * 0) with (r * 1) by ring. replace (r * e * 0 + r * 1 * 1) with (r * 1) by ring. replace (r * 1 * 0 + r * - e' * 1) with (r * - e') by ring.
  rewrite !Pm, !P1. cbn [fpow]. replace (fpow r n) with (fpow r (weight x) * fpow r (n - weight x)) by (rewrite <- fpow_add; f_equal; lia). ring.
Qed.
End Gen.
