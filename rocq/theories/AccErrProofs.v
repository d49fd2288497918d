(** Pauli errors are carried to the end of a circuit. *)
From Coq Require Import QArith Permutation.
From Verif Require Import Base LinAlg ResultFacts QSem CountsModel DihedralModel RBSeqModel RBSeqSpec RBSeqActProofs StdGates AccModel AccSpec AccLayerProofs AccQotpProofs AccProbProofs AccTrapProofs AccErrSpec.
Open Scope nat_scope.

(** ** Errors through gates *)
Definition xe (e f : error) : error := fun q => (xorb (fst (e q)) (fst (f q)), xorb (snd (e q)) (snd (f q))).
Definition fr (g : ginstr) (f : error) : error :=
  match gqubits g with
  | [q] => if eqb (gname g) (str "h") then fun j => if j =? q then (snd (f q), fst (f q)) else f j
           else if eqb (gname g) (str "s") || eqb (gname g) (str "sdg") then fun j => if j =? q then (xorb (fst (f q)) (snd (f q)), snd (f q)) else f j
           else f
  | [c; t] => if eqb (gname g) (str "cx") then fun j => if j =? c then (xorb (fst (f c)) (fst (f t)), snd (f c)) else if j =? t then (fst (f t), xorb (snd (f t)) (snd (f c))) else f j
              else if eqb (gname g) (str "cz") then fun j => if j =? c then (xorb (fst (f c)) (snd (f t)), snd (f c)) else if j =? t then (xorb (fst (f t)) (snd (f c)), snd (f t)) else f j
              else f
  | _ => f
  end.
Definition frs (gs : list ginstr) (f : error) : error := fold_left (fun f g => fr g f) gs f.
Lemma frs_app a b f : frs (a ++ b) f = frs b (frs a f). Proof. apply fold_left_app. Qed.

Section Frames.
Context {F : Type} {HF : Fld F}.
Add Field FldFieldE : fth.
Variable gmat : pystr -> list Q -> bits -> bits -> F.
Notation same_action := (same_action gmat).
Notation op_of := (op_of gmat).
Variables r i : F.
Hypothesis Hstd : std_gates gmat r i.
Local Open Scope fld_scope.
Notation ops_of l := (map op_of (gates l)).
Notation sgn := (StdGates.sgn (F := F)).
Variable n : nat.
Notation pauli := (pauli (F := F)).

Definition zb (f : error) : bits := map (fun q => fst (f q)) (seq 0 n).
Definition xb (f : error) : bits := map (fun q => snd (f q)) (seq 0 n).
Lemma len_zb f : length (zb f) = n. Proof. unfold zb. rewrite map_length, seq_length. reflexivity. Qed.
Lemma len_xb f : length (xb f) = n. Proof. unfold xb. rewrite map_length, seq_length. reflexivity. Qed.
Lemma bit_map (h : nat -> bool) q : (q < n)%nat -> nth q (map h (seq 0 n)) false = h q.
Proof. intros H. rewrite (nth_indep _ false (h 0%nat)) by (rewrite map_length, seq_length; exact H). rewrite map_nth, seq_nth by exact H. reflexivity. Qed.
Lemma map_upd (h : nat -> bool) q v : map (fun j => if j =? q then v else h j) (seq 0 n) = set1 (map h (seq 0 n)) q v.
Proof.
  apply bits_ext; [rewrite length_set1, !map_length; reflexivity|]. intros j Hj. rewrite map_length, seq_length in Hj. rewrite bit_map by exact Hj.
  destruct (Nat.eqb_spec j q) as [->|E]; [rewrite nth_set1_eq by (rewrite map_length, seq_length; exact Hj); reflexivity|]. rewrite nth_set1_ne, bit_map by (auto; congruence). reflexivity.
Qed.
Definition carries (gs : list ginstr) (f f' : error) : Prop :=
  exists k, k <> 0 /\ forall psi, eqa n (run (map op_of gs) (pauli n (zb f) (xb f) psi)) (fun y => k * pauli n (zb f') (xb f') (run (map op_of gs) psi) y).
Definition clif (g : ginstr) : Prop :=
  (exists q, (q < n)%nat /\ (g = gq "h" [q] \/ g = gq "s" [q] \/ g = gq "sdg" [q] \/ g = gq "x" [q] \/ g = gq "z" [q])) \/
  (exists c t, (c < n /\ t < n /\ c <> t)%nat /\ (g = gq "cx" [c; t] \/ g = gq "cz" [c; t])).
Lemma xors_set1 y x q b : length y = n -> length x = n -> (q < n)%nat -> xors (set1 y q b) x = set1 (xors y x) q (xorb b (bit x q)).
Proof.
  intros Hy Hx Hq. apply bits_ext; [rewrite length_set1, !length_xors, length_set1; reflexivity|]. intros j Hj. rewrite nth_xors by (rewrite length_set1; lia).
  destruct (Nat.eq_dec j q) as [->|E]; [rewrite !nth_set1_eq by (rewrite ?length_xors; lia); reflexivity|]. rewrite !nth_set1_ne by congruence. rewrite nth_xors by lia. reflexivity.
Qed.
Lemma xors_set1' y x q b : length y = n -> length x = n -> (q < n)%nat -> xors y (set1 x q b) = set1 (xors y x) q (xorb b (nth q y false)).
Proof.
  intros Hy Hx Hq. apply bits_ext; [rewrite length_set1, !length_xors, length_set1; reflexivity|]. intros j Hj. rewrite nth_xors by (rewrite length_set1; lia).
  destruct (Nat.eq_dec j q) as [->|E]; [rewrite !nth_set1_eq by (rewrite ?length_xors; lia); apply xorb_comm|]. rewrite !nth_set1_ne by congruence. rewrite nth_xors by lia. reflexivity.
Qed.
Lemma carry_h q f : (q < n)%nat -> carries [gq "h" [q]] f (fr (gq "h" [q]) f).
Proof.
  intros Hq. set (z := zb f). set (x := xb f). pose proof (len_zb f) as Lz. pose proof (len_xb f) as Lx. fold z in Lz. fold x in Lx.
  assert (Ez : zb (fr (gq "h" [q]) f) = set1 z q (bit x q)).
  { unfold z, bit, x, xb. rewrite bit_map by exact Hq. unfold zb. rewrite <- map_upd. apply map_ext. intros j. cbn [fr gq gqubits gname]. change (eqb (str "h") (str "h")) with true. cbv beta iota. destruct (j =? q); reflexivity. }
  assert (Ex : xb (fr (gq "h" [q]) f) = set1 x q (bit z q)).
  { unfold x, bit, z, zb. rewrite bit_map by exact Hq. unfold xb. rewrite <- map_upd. apply map_ext. intros j. cbn [fr gq gqubits gname]. change (eqb (str "h") (str "h")) with true. cbv beta iota. destruct (j =? q); reflexivity. }
  exists (sgn (bit z q && bit x q)). split; [apply sgn_neq0|]. intros psi y Hy. rewrite Ez, Ex. fold z x. cbn [map run]. rewrite (apply_h gmat r i Hstd). unfold AccQotpProofs.pauli. rewrite (apply_h gmat r i Hstd).
  rewrite !dot_set1_r by auto. rewrite dot_set1_l by auto. rewrite !xors_set1 by auto. rewrite xors_set1' by auto. rewrite !set1_set1. rewrite nth_set1_eq by (rewrite length_xors; lia). rewrite !xorb_false_l.
  unfold bit. destruct (nth q z false), (nth q x false), (nth q y false); cbn [andb xorb negb]; rewrite ?xorb_false_r, ?xorb_true_r; destruct (dot n z y); cbn; ring.
Qed.
Lemma carry_s nm q f (a : F) : nm = "s"%string /\ a = i \/ nm = "sdg"%string /\ a = - i -> (q < n)%nat -> carries [gq nm [q]] f (fr (gq nm [q]) f).
Proof.
  intros Hnm Hq. set (z := zb f). set (x := xb f). pose proof (len_zb f) as Lz. pose proof (len_xb f) as Lx. fold z in Lz. fold x in Lx.
  assert (Hs : forall psi y, apply (op_of (gq nm [q])) psi y = (if nth q y false then a else 1) * psi y) by (intros psi y; destruct Hnm as [[-> ->]|[-> ->]]; [apply (apply_s gmat r i Hstd)|apply (apply_sdg gmat r i Hstd)]).
  assert (Haa : a * a = - (1)) by (destruct Hnm as [[_ ->]|[_ ->]]; [apply (sg_i _ _ _ Hstd)|transitivity (i * i); [ring|apply (sg_i _ _ _ Hstd)]]).
  assert (Ha : a <> 0) by (intros E; rewrite E in Haa; apply (f1_neq_0 (F:=F)); transitivity (- (- (1)) : F); [ring|rewrite <- Haa; ring]).
  assert (Efr : forall j, fr (gq nm [q]) f j = if j =? q then (xorb (fst (f q)) (snd (f q)), snd (f q)) else f j) by (intros j; destruct Hnm as [[-> _]|[-> _]]; reflexivity).
  assert (Ez : zb (fr (gq nm [q]) f) = set1 z q (xorb (bit z q) (bit x q))).
  { unfold bit, z, zb, x, xb. rewrite !bit_map by exact Hq. rewrite <- map_upd. apply map_ext. intros j. rewrite Efr. destruct (j =? q); reflexivity. }
  assert (Ex : xb (fr (gq nm [q]) f) = x).
  { unfold x, xb. apply map_ext. intros j. rewrite Efr. destruct (Nat.eqb_spec j q) as [->|_]; reflexivity. }
  exists (if bit x q then - a else 1). split; [destruct (bit x q); [intros E; apply Ha; transitivity (- (- a) : F); [ring|rewrite E; ring]|apply f1_neq_0]|]. intros psi y Hy. rewrite Ez, Ex. fold z x. cbn [map run]. rewrite Hs. unfold AccQotpProofs.pauli. rewrite Hs.
  rewrite dot_set1_l by auto. rewrite nth_xors by lia. unfold bit. destruct (nth q z false), (nth q x false), (nth q y false); cbn [andb xorb negb]; rewrite ?xorb_false_r, ?xorb_true_r; destruct (dot n z y); cbn; try ring;
  match goal with |- ?u = ?v => transitivity (- (a * a) * u); [rewrite Haa; ring|ring] end.
Qed.
Lemma carry_two g2 c t f : g2 = "cx"%string \/ g2 = "cz"%string -> (c < n)%nat -> (t < n)%nat -> c <> t -> carries [gq g2 [c; t]] f (fr (gq g2 [c; t]) f).
Proof.
  intros Hg Hc Ht Hct.
  assert (P : pauli_step (str g2) (zb f, xb f) (CGate (gq g2 [c; t])) = Ok (zb (fr (gq g2 [c; t]) f), xb (fr (gq g2 [c; t]) f))).
  { unfold pauli_step. cbn [instr_qubits gq gqubits index_e nth_error bind]. unfold bit, zb, xb. rewrite !bit_map by assumption. destruct Hg as [-> | ->].
    - change (eqb (str "cx") (str "cx")) with true. cbn iota. f_equal. f_equal.
      + rewrite <- map_upd. apply map_ext. intros j. change (fr (gq "cx" [c; t]) f j) with (if j =? c then (xorb (fst (f c)) (fst (f t)), snd (f c)) else if j =? t then (fst (f t), xorb (snd (f t)) (snd (f c))) else f j). destruct (j =? c); [reflexivity|]. destruct (Nat.eqb_spec j t) as [->|_]; reflexivity.
      + rewrite <- map_upd. apply map_ext. intros j. change (fr (gq "cx" [c; t]) f j) with (if j =? c then (xorb (fst (f c)) (fst (f t)), snd (f c)) else if j =? t then (fst (f t), xorb (snd (f t)) (snd (f c))) else f j). destruct (Nat.eqb_spec j t) as [->|_]; [destruct (Nat.eqb_spec t c); [congruence|reflexivity]|]. destruct (Nat.eqb_spec j c) as [->|_]; reflexivity.
    - change (eqb (str "cz") (str "cx")) with false. change (eqb (str "cz") (str "cz")) with true. cbn iota. f_equal. rewrite nth_set1_ne by congruence. rewrite !bit_map by assumption. f_equal.
      + rewrite <- !map_upd. apply map_ext. intros j. change (fr (gq "cz" [c; t]) f j) with (if j =? c then (xorb (fst (f c)) (snd (f t)), snd (f c)) else if j =? t then (xorb (fst (f t)) (snd (f c)), snd (f t)) else f j). destruct (Nat.eqb_spec j t) as [->|_]; [destruct (Nat.eqb_spec t c); [congruence|reflexivity]|]. destruct (j =? c); reflexivity.
      + apply map_ext. intros j. change (fr (gq "cz" [c; t]) f j) with (if j =? c then (xorb (fst (f c)) (snd (f t)), snd (f c)) else if j =? t then (xorb (fst (f t)) (snd (f c)), snd (f t)) else f j). destruct (Nat.eqb_spec j c) as [->|_]; [reflexivity|]. destruct (Nat.eqb_spec j t) as [->|_]; reflexivity. }
  assert (T : two_ok (str g2) n (CGate (gq g2 [c; t]))) by (exists c, t; repeat split; auto).
  destruct (pauli_step_ok gmat r i Hstd (str g2) n _ _ _ _ _ T (len_zb f) (len_xb f) P) as (_ & _ & b & H). exists (sgn b). split; [apply sgn_neq0|exact H].
Qed.
Lemma carry_x q f : (q < n)%nat -> carries [gq "x" [q]] f f.
Proof.
  intros Hq. exists (sgn (bit (zb f) q)). split; [apply sgn_neq0|]. intros psi y Hy. cbn [map run]. rewrite (apply_x gmat r i Hstd). unfold AccQotpProofs.pauli. rewrite (apply_x gmat r i Hstd).
  rewrite dot_set1_r by auto. rewrite xors_set1 by (auto using len_xb). rewrite nth_xors by (rewrite len_xb; exact Hy).
  replace (xorb (negb (nth q y false)) (bit (xb f) q)) with (negb (xorb (nth q y false) (nth q (xb f) false))) by (unfold bit; destruct (nth q y false), (nth q (xb f) false); reflexivity).
  unfold bit. destruct (nth q (zb f) false), (nth q y false); cbn [andb xorb negb]; rewrite ?xorb_false_r, ?xorb_true_r; destruct (dot n (zb f) y); cbn; ring.
Qed.
Lemma carry_z q f : (q < n)%nat -> carries [gq "z" [q]] f f.
Proof.
  intros Hq. exists (sgn (bit (xb f) q)). split; [apply sgn_neq0|]. intros psi y Hy. cbn [map run]. rewrite (apply_z gmat r i Hstd). unfold AccQotpProofs.pauli. rewrite (apply_z gmat r i Hstd).
  rewrite nth_xors by (rewrite len_xb; exact Hy). rewrite sgn_xor. unfold bit. destruct (nth q (xb f) false), (nth q y false), (dot n (zb f) y); cbn; ring.
Qed.
Lemma carry_one g f : clif g -> carries [g] f (fr g f).
Proof.
  intros [(q & Hq & [-> | [-> | [-> | [-> | ->]]]])|(c & t & (Hc & Ht & Hct) & [-> | ->])].
  - apply carry_h, Hq.
  - apply (carry_s "s" q f i); auto.
  - apply (carry_s "sdg" q f (- i)); auto.
  - apply carry_x, Hq.
  - apply carry_z, Hq.
  - apply carry_two; auto.
  - apply carry_two; auto.
Qed.
Lemma carries_app a b f g h : carries a f g -> carries b g h -> carries (a ++ b) f h.
Proof.
  intros (k & Hk & A) (l & Hl & B). exists (k * l). split; [apply fmul_neq_0; assumption|]. intros psi y Hy. rewrite !map_app, !run_app.
  rewrite (run_ext n _ _ _ (A psi) y Hy). rewrite (run_scale _ k (pauli n (zb g) (xb g) (run (map op_of a) psi)) n y Hy). rewrite (B _ y Hy). ring.
Qed.
Lemma carry_all gs : Forall clif gs -> forall f, carries gs f (frs gs f).
Proof.
  induction 1 as [|g gs Hg Hgs IH]; intros f.
  - exists 1. split; [apply f1_neq_0|]. intros psi y Hy. cbn. ring.
  - change (g :: gs) with ([g] ++ gs). rewrite frs_app. apply (carries_app [g] gs f (fr g f)); [apply carry_one, Hg|apply IH].
Qed.
(** An error that strikes. *)
Lemma run_err e psi : eqa n (run (ops_of (err_gates n e)) psi) (pauli n (zb e) (xb e) psi).
Proof.
  intros y Hy. rewrite <- (run_xz gmat r i Hstd n (zb e) (xb e) psi y (len_xb e) Hy). f_equal. f_equal. f_equal. unfold err_gates, xz_gates. rewrite !flat_map_concat_map. f_equal. apply map_ext_in. intros q Hq. apply in_seq in Hq. unfold bit, zb, xb. rewrite !bit_map by lia. reflexivity.
Qed.
Lemma dot_ext z z' y : (forall q, (q < n)%nat -> bit z q = bit z' q) -> dot n z y = dot n z' y.
Proof. intros H. unfold dot. apply par_ext. intros q Hq. apply in_seq in Hq. rewrite H by lia. reflexivity. Qed.
Lemma pauli_xe e f psi : eqa n (pauli n (zb e) (xb e) (pauli n (zb f) (xb f) psi)) (fun y => sgn (dot n (zb f) (xb e)) * pauli n (zb (xe f e)) (xb (xe f e)) psi y).
Proof.
  intros y Hy. unfold AccQotpProofs.pauli. rewrite dot_xors by (auto using len_xb).
  assert (E1 : xors (xors y (xb e)) (xb f) = xors y (xb (xe f e))).
  { apply bits_ext; [rewrite !length_xors, !len_xb; lia|]. intros j Hj. rewrite !length_xors, !len_xb in Hj. rewrite !nth_xors by (rewrite ?length_xors, ?len_xb; lia). unfold xb. rewrite !bit_map by lia. cbn [xe snd]. destruct (nth j y false), (snd (e j)), (snd (f j)); reflexivity. }
  assert (E2 : dot n (zb (xe f e)) y = xorb (dot n (zb f) y) (dot n (zb e) y)).
  { rewrite (dot_comm n (zb f)), (dot_comm n (zb e)), <- dot_xors by apply len_zb. unfold dot. apply par_ext. intros q Hq. apply in_seq in Hq. unfold bit. rewrite nth_xors by (rewrite !len_zb; reflexivity). unfold zb. rewrite !bit_map by lia. cbn [xe fst]. destruct (nth q y false), (fst (f q)), (fst (e q)); reflexivity. }
  rewrite E1, E2, !sgn_xor. ring.
Qed.
End Frames.
