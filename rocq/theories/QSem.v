(** Exact semantics of quantum circuits, independent of qiskit-ignis: a state of
    [N] qubits is an amplitude for every list of [N] bits (qubit [q] is entry
    [q]), with amplitudes in an arbitrary field; a gate is a matrix indexed by
    the bits of its own qubits, in the order of its arguments.  This is the
    standard meaning of Qiskit Terra circuits; Terra itself is not modelled. *)
From Verif Require Import Base LinAlg.
Open Scope nat_scope.

Notation bits := (list bool).

(** Bits of the qubits [qs], and replacement of these bits. *)
Definition rd (qs : list nat) (x : bits) : bits := map (fun q => nth q x false) qs.
Fixpoint set1 (x : bits) (q : nat) (b : bool) : bits :=
  match x, q with
  | [], _ => []
  | _ :: x', O => b :: x'
  | a :: x', S q' => a :: set1 x' q' b
  end.
Fixpoint wr (qs : list nat) (b x : bits) : bits :=
  match qs, b with
  | q :: qs', v :: b' => set1 (wr qs' b' x) q v
  | _, _ => x
  end.

(** All lists of [n] bits. *)
Fixpoint cube (n : nat) : list bits :=
  match n with
  | O => [[]]
  | S n' => map (cons false) (cube n') ++ map (cons true) (cube n')
  end.

Lemma in_cube n b : In b (cube n) <-> length b = n.
Proof.
  revert b. induction n as [|n IH]; intros b; cbn [cube].
  - destruct b; cbn; split; intros H; try reflexivity; auto; try discriminate. destruct H as [H|[]]; discriminate.
  - rewrite in_app_iff, !in_map_iff. split.
    + intros [[c [<- Hc]]|[c [<- Hc]]]; cbn; f_equal; apply IH; exact Hc.
    + destruct b as [|v b]; [discriminate|]. intros H. injection H as H. apply IH in H. destruct v; [right|left]; exists b; auto.
Qed.


Lemma length_set1 x q b : length (set1 x q b) = length x.
Proof. revert q; induction x as [|a x IH]; intros [|q]; cbn; auto. Qed.
Lemma length_wr qs b x : length (wr qs b x) = length x.
Proof. revert b; induction qs as [|q qs IH]; intros [|v b]; cbn; auto. rewrite length_set1; auto. Qed.
Lemma length_rd qs x : length (rd qs x) = length qs.
Proof. apply map_length. Qed.

Lemma nth_set1 x q b j : nth j (set1 x q b) false = if (j =? q) && (q <? length x) then b else nth j x false.
Proof.
  revert q j; induction x as [|a x IH]; intros [|q] [|j]; cbn [set1 nth length]; auto.
  - destruct (Nat.ltb_spec (S q) 0); [lia|]. rewrite andb_false_r. reflexivity.
  - rewrite IH. reflexivity.
Qed.

Lemma wr_out qs b x j : ~ In j qs -> nth j (wr qs b x) false = nth j x false.
Proof.
  revert b; induction qs as [|q qs IH]; intros [|v b] H; cbn [wr]; auto.
  rewrite nth_set1. destruct (Nat.eqb_spec j q) as [->|Hn]; [exfalso; apply H; left; reflexivity|].
  cbn [andb]. apply IH. intros Hi; apply H; right; exact Hi.
Qed.

Lemma wr_in qs b x i : NoDup qs -> length b = length qs -> i < length qs -> nth i qs 0 < length x ->
  nth (nth i qs 0) (wr qs b x) false = nth i b false.
Proof.
  revert b i; induction qs as [|q qs IH]; intros [|v b] i Hd Hl Hi Hx; cbn [length] in *; try lia.
  apply NoDup_cons_iff in Hd. destruct Hd as [Hq Hd]. cbn [wr]. rewrite nth_set1, length_wr.
  destruct i as [|i]; cbn [nth] in *.
  - rewrite Nat.eqb_refl. destruct (Nat.ltb_spec q (length x)); [reflexivity|lia].
  - destruct (Nat.eqb_spec (nth i qs 0) q) as [E|_].
    + exfalso; apply Hq. rewrite <- E. apply nth_In; lia.
    + cbn [andb]. apply IH; auto; lia.
Qed.

Lemma bits_ext (x y : bits) : length x = length y -> (forall j, j < length x -> nth j x false = nth j y false) -> x = y.
Proof. intros Hl H. apply nth_ext with (d:=false) (d':=false); auto. Qed.

Lemma nth_rd qs x i : i < length qs -> nth i (rd qs x) false = nth (nth i qs 0) x false.
Proof. intros H. unfold rd. rewrite (nth_indep _ false ((fun q => nth q x false) 0)) by (rewrite map_length; exact H). rewrite (map_nth (fun q => nth q x false)). reflexivity. Qed.

Lemma in_nth (qs : list nat) j : In j qs -> exists i, i < length qs /\ nth i qs 0 = j.
Proof. intros H. destruct (In_nth qs j 0 H) as [i [Hi E]]. exists i; auto. Qed.

Lemma wr_rd qs x : NoDup qs -> (forall q, In q qs -> q < length x) -> wr qs (rd qs x) x = x.
Proof.
  intros Hd Hlt. apply bits_ext; [apply length_wr|]. intros j _.
  destruct (in_dec Nat.eq_dec j qs) as [Hi|Hi]; [|apply wr_out; exact Hi].
  apply in_nth in Hi. destruct Hi as [i [Hi <-]].
  rewrite wr_in; auto; [apply nth_rd; auto | apply length_rd | apply Hlt, nth_In; auto].
Qed.

Lemma rd_wr_disjoint qs qs' b x : (forall q, In q qs -> ~ In q qs') -> rd qs (wr qs' b x) = rd qs x.
Proof. intros H. unfold rd. apply map_ext_in. intros q Hq. apply wr_out, H, Hq. Qed.

Lemma rd_wr qs b x : NoDup qs -> length b = length qs -> (forall q, In q qs -> q < length x) -> rd qs (wr qs b x) = b.
Proof.
  intros Hd Hl Hx. apply bits_ext; [rewrite length_rd; auto|]. rewrite length_rd. intros i Hi.
  rewrite nth_rd by exact Hi. apply wr_in; auto. apply Hx, nth_In, Hi.
Qed.

Lemma wr_comm qs b qs' b' x : NoDup qs -> NoDup qs' -> length b = length qs -> length b' = length qs' ->
  (forall q, In q qs -> q < length x) -> (forall q, In q qs' -> q < length x) ->
  (forall q, In q qs -> ~ In q qs') -> wr qs b (wr qs' b' x) = wr qs' b' (wr qs b x).
Proof.
  intros Hd Hd' Hl Hl' Hx Hx' Hdis. apply bits_ext; [rewrite !length_wr; reflexivity|]. intros j _.
  destruct (in_dec Nat.eq_dec j qs) as [Hi|Hi].
  - rewrite (wr_out qs') by (apply Hdis; exact Hi). apply in_nth in Hi. destruct Hi as [i [Hi <-]].
    rewrite !wr_in; auto; try (apply Hx, nth_In, Hi). rewrite length_wr. apply Hx, nth_In, Hi.
  - rewrite (wr_out qs) by exact Hi. destruct (in_dec Nat.eq_dec j qs') as [Hi'|Hi'].
    + apply in_nth in Hi'. destruct Hi' as [i [Hi' <-]].
      rewrite !wr_in; auto; try (apply Hx', nth_In, Hi'). rewrite length_wr. apply Hx', nth_In, Hi'.
    + rewrite !wr_out by assumption. reflexivity.
Qed.

Definition place (pat qs : list nat) : list nat := map (fun q => nth q pat 0) qs.

Lemma length_place pat qs : length (place pat qs) = length qs. Proof. apply map_length. Qed.
Lemma nth_place pat qs i : i < length qs -> nth i (place pat qs) 0 = nth (nth i qs 0) pat 0.
Proof. intros H. unfold place. rewrite (nth_indep _ 0 ((fun q => nth q pat 0) 0)) by (rewrite map_length; exact H). rewrite (map_nth (fun q => nth q pat 0)). reflexivity. Qed.
Lemma in_place pat qs q : (forall j, In j qs -> j < length pat) -> In q (place pat qs) -> In q pat.
Proof. intros H Hq. unfold place in Hq. apply in_map_iff in Hq. destruct Hq as [j [<- Hj]]. apply nth_In; auto. Qed.
Lemma nodup_place pat qs : NoDup pat -> NoDup qs -> (forall j, In j qs -> j < length pat) -> NoDup (place pat qs).
Proof.
  intros Hp Hq Hlt. induction Hq as [|q qs Hn Hq IH]; cbn; constructor.
  - intros Hi. apply in_map_iff in Hi. destruct Hi as [j [E Hj]]. apply Hn.
    assert (j = q) as <-; [|exact Hj].
    apply (proj1 (NoDup_nth pat 0) Hp); auto; apply Hlt; [right; exact Hj | left; reflexivity].
  - apply IH. intros j Hj. apply Hlt. right; exact Hj.
Qed.

Lemma rd_place pat qs y x : NoDup pat -> length y = length pat -> (forall q, In q pat -> q < length x) ->
  (forall j, In j qs -> j < length pat) -> rd (place pat qs) (wr pat y x) = rd qs y.
Proof.
  intros Hp Hy Hx Hq. unfold rd, place. rewrite map_map. apply map_ext_in. intros q Hi.
  apply wr_in; auto. apply Hx, nth_In; auto.
Qed.

Lemma wr_place pat qs b y x : NoDup pat -> NoDup qs -> length y = length pat -> length b = length qs ->
  (forall q, In q pat -> q < length x) -> (forall j, In j qs -> j < length pat) ->
  wr (place pat qs) b (wr pat y x) = wr pat (wr qs b y) x.
Proof.
  intros Hp Hqd Hy Hb Hx Hq. apply bits_ext; [rewrite !length_wr; reflexivity|]. intros j _.
  destruct (in_dec Nat.eq_dec j pat) as [Hi|Hi].
  - apply in_nth in Hi. destruct Hi as [i [Hi <-]]. assert (nth i pat 0 < length x) by (apply Hx, nth_In; auto).
    rewrite (wr_in pat (wr qs b y)); auto; [|rewrite length_wr; auto].
    destruct (in_dec Nat.eq_dec i qs) as [Hiq|Hiq].
    + apply in_nth in Hiq. destruct Hiq as [t [Ht E]].
      rewrite <- E, <- nth_place by exact Ht. rewrite wr_in; auto.
      * symmetry. apply wr_in; auto. rewrite E, Hy. exact Hi.
      * apply nodup_place; auto.
      * rewrite length_place; auto.
      * rewrite length_place; auto.
      * rewrite nth_place, E, length_wr by exact Ht. exact H.
    + rewrite (wr_out qs) by exact Hiq. rewrite wr_out; [apply wr_in; auto|].
      intros Hc. apply Hiq. unfold place in Hc. apply in_map_iff in Hc. destruct Hc as [k [E Hk]].
      assert (k = i) as <-; [|exact Hk]. apply (proj1 (NoDup_nth pat 0) Hp); auto.
  - rewrite !(wr_out pat) by exact Hi. rewrite !wr_out; auto.
    intros Hc. apply Hi. apply (in_place pat qs); auto.
Qed.

Section Sem.
Context {F : Type} {HF : Fld F}.
Add Field FldFieldQ : fth.
Local Open Scope fld_scope.

Definition amp := bits -> F.
Record op := { o_mat : bits -> bits -> F; o_qs : list nat }.

(** One gate, and a sequence of gates from left to right. *)
Definition apply (o : op) (psi : amp) : amp :=
  fun x => fsum (map (fun b => o_mat o (rd (o_qs o) x) b * psi (wr (o_qs o) b x)) (cube (length (o_qs o)))).
Fixpoint run (c : list op) (psi : amp) : amp :=
  match c with [] => psi | o :: c' => run c' (apply o psi) end.

(** The gate's qubits are distinct qubits of the register. *)
Definition ok_op (N : nat) (o : op) : Prop := NoDup (o_qs o) /\ forall q, In q (o_qs o) -> q < N.

Definition eqa (N : nat) (p q : amp) : Prop := forall x, length x = N -> p x = q x.

(** Same action on [N] qubits, up to a non-zero factor. *)
Definition equiv (N : nat) (c c' : list op) : Prop :=
  exists k, k <> 0 /\ forall psi x, length x = N -> run c psi x = k * run c' psi x.

(** The gate moved to the qubits [pat]. *)
Definition relabel (pat : list nat) (o : op) : op := {| o_mat := o_mat o; o_qs := place pat (o_qs o) |}.

Lemma run_app c d psi : run (c ++ d) psi = run d (run c psi).
Proof. revert psi; induction c as [|o c IH]; intros psi; cbn; auto. Qed.

Lemma apply_ext N o p q : eqa N p q -> eqa N (apply o p) (apply o q).
Proof. intros H x Hx. unfold apply. apply fsum_map_ext. intros b _. rewrite (H (wr (o_qs o) b x)); [reflexivity | rewrite length_wr; exact Hx]. Qed.

Lemma run_ext N c p q : eqa N p q -> eqa N (run c p) (run c q).
Proof. revert p q; induction c as [|o c IH]; intros p q H; cbn; auto. apply IH, apply_ext, H. Qed.

Lemma apply_scale o k p x : apply o (fun y => k * p y) x = k * apply o p x.
Proof. unfold apply. rewrite <- fsum_map_mul. apply fsum_map_ext. intros b _. ring. Qed.

Lemma run_scale c : forall k p N, eqa N (run c (fun y => k * p y)) (fun x => k * run c p x).
Proof.
  induction c as [|o c IH]; intros k p N x Hx; cbn; auto.
  rewrite (run_ext N c (apply o (fun y => k * p y)) (fun y => k * apply o p y)); auto.
  - apply (IH k (apply o p) N x Hx).
  - intros y _. apply apply_scale.
Qed.

Lemma equiv_refl N c : equiv N c c.
Proof. exists 1. split; [apply f1_neq_0|]. intros; ring. Qed.
Lemma equiv_sym N c d : equiv N c d -> equiv N d c.
Proof.
  intros [k [Hk H]]. exists (1 / k). split.
  - intros E. apply f1_neq_0. transitivity (1 / k * k); [field; exact Hk | rewrite E; ring].
  - intros psi x Hx. rewrite (H psi x Hx). field. exact Hk.
Qed.
Lemma fmul_neq_0 (a b : F) : a <> 0 -> b <> 0 -> a * b <> 0.
Proof. intros Ha Hb E. apply fmul_eq_0 in E. tauto. Qed.
Lemma equiv_trans N c d e : equiv N c d -> equiv N d e -> equiv N c e.
Proof.
  intros [k [Hk H]] [l [Hl H']]. exists (k * l). split; [apply fmul_neq_0; auto|].
  intros psi x Hx. rewrite (H psi x Hx), (H' psi x Hx). ring.
Qed.
Lemma equiv_app N a b c d : equiv N a b -> equiv N c d -> equiv N (a ++ c) (b ++ d).
Proof.
  intros [k [Hk H]] [l [Hl H']]. exists (k * l). split; [apply fmul_neq_0; auto|].
  intros psi x Hx. rewrite !run_app. rewrite (run_ext N c _ (fun y => k * run b psi y)); auto.
  - rewrite (run_scale c k (run b psi) N x Hx), (H' _ x Hx). ring.
  - intros y Hy. apply H; exact Hy.
Qed.

(** ** Moving a circuit to other qubits *)
Lemma apply_place N pat o psi x y : NoDup pat -> (forall q, In q pat -> q < N) -> ok_op (length pat) o ->
  length x = N -> length y = length pat ->
  apply (relabel pat o) psi (wr pat y x) = apply o (fun y' => psi (wr pat y' x)) y.
Proof.
  intros Hp HN [Hd Hq] Hx Hy. unfold apply. cbn [relabel o_mat o_qs]. rewrite length_place.
  apply fsum_map_ext. intros b Hb. apply in_cube in Hb. subst N.
  rewrite rd_place, wr_place; auto.
Qed.

Lemma run_place N pat c : NoDup pat -> (forall q, In q pat -> q < N) -> Forall (ok_op (length pat)) c ->
  forall psi x y, length x = N -> length y = length pat ->
  run (map (relabel pat) c) psi (wr pat y x) = run c (fun y' => psi (wr pat y' x)) y.
Proof.
  intros Hp HN Hc. induction Hc as [|o c Ho Hc IH]; intros psi x y Hx Hy; cbn [map run]; auto.
  rewrite IH by auto. apply (run_ext (length pat) c); auto.
  intros y' Hy'. apply (apply_place N); auto.
Qed.

Lemma equiv_place N pat c d : NoDup pat -> (forall q, In q pat -> q < N) ->
  Forall (ok_op (length pat)) c -> Forall (ok_op (length pat)) d ->
  equiv (length pat) c d -> equiv N (map (relabel pat) c) (map (relabel pat) d).
Proof.
  intros Hp HN Hc Hd [k [Hk H]]. exists k. split; [exact Hk|]. intros psi x Hx.
  assert (E : x = wr pat (rd pat x) x) by (symmetry; apply wr_rd; auto; subst N; exact HN).
  rewrite E. rewrite !(run_place N pat); auto; try apply length_rd.
  apply H, length_rd.
Qed.

(** ** Gates on different qubits commute *)
Definition disjoint (o o' : op) : Prop := forall q, In q (o_qs o) -> ~ In q (o_qs o').

Lemma apply_comm N o o' psi : ok_op N o -> ok_op N o' -> disjoint o o' ->
  eqa N (apply o (apply o' psi)) (apply o' (apply o psi)).
Proof.
  intros [Hd Hq] [Hd' Hq'] Hdis x Hx. unfold apply.
  assert (Hdis' : forall q, In q (o_qs o') -> ~ In q (o_qs o)) by (intros q Hi Hj; exact (Hdis q Hj Hi)).
  transitivity (fsum (map (fun b => fsum (map (fun b' => o_mat o (rd (o_qs o) x) b * (o_mat o' (rd (o_qs o') x) b' *
     psi (wr (o_qs o') b' (wr (o_qs o) b x)))) (cube (length (o_qs o'))))) (cube (length (o_qs o))))).
  - apply fsum_map_ext. intros b _. rewrite fsum_map_mul. f_equal. apply fsum_map_ext. intros b' _.
    rewrite rd_wr_disjoint by exact Hdis'. reflexivity.
  - rewrite fsum_swap. apply fsum_map_ext. intros b' Hb'. rewrite <- fsum_map_mul. apply fsum_map_ext. intros b Hb.
    apply in_cube in Hb. apply in_cube in Hb'. subst N.
    rewrite rd_wr_disjoint by exact Hdis. rewrite (wr_comm (o_qs o') b' (o_qs o)) by auto. ring.
Qed.

Lemma run_apply_comm N o c : ok_op N o -> Forall (ok_op N) c -> Forall (disjoint o) c ->
  forall psi, eqa N (run c (apply o psi)) (apply o (run c psi)).
Proof.
  intros Ho Hc Hdis. induction c as [|o' c IH]; intros psi x Hx; cbn [run]; auto.
  inversion Hc; inversion Hdis; subst. rewrite <- (IH ltac:(assumption) ltac:(assumption) (apply o' psi) x eq_refl).
  apply (run_ext (length x)); auto. intros y Hy. apply (apply_comm (length x)); auto.
  intros q Hq Hq'. match goal with H : disjoint o o' |- _ => exact (H q Hq' Hq) end.
Qed.

(** The gates selected by [P] can be performed first, if they share no qubit
    with the others. *)
Lemma run_select N (P : op -> bool) c : Forall (ok_op N) c ->
  (forall o o', In o c -> In o' c -> P o = true -> P o' = false -> disjoint o o') ->
  forall psi, eqa N (run c psi) (run (filter (fun o => negb (P o)) c) (run (filter P c) psi)).
Proof.
  intros Hc Hdis. induction c as [|o c IH]; intros psi x Hx; cbn [run filter]; auto.
  inversion Hc as [|? ? Ho Hc']; subst.
  assert (Hdis' : forall a b, In a c -> In b c -> P a = true -> P b = false -> disjoint a b)
    by (intros a b Ha Hb; apply Hdis; right; assumption).
  rewrite (IH Hc' Hdis' (apply o psi) x eq_refl).
  destruct (P o) eqn:E; cbn [negb run]; auto.
  apply (run_ext (length x)); auto. intros y Hy.
  apply (run_apply_comm (length x) o); auto.
  - apply Forall_forall. intros a Ha. apply filter_In in Ha. rewrite Forall_forall in Hc'. apply Hc', Ha.
  - apply Forall_forall. intros a Ha q Hq Hq'. apply filter_In in Ha. destruct Ha as [Ha Pa].
    apply (Hdis a o (or_intror Ha) (or_introl eq_refl) Pa E q Hq' Hq).
Qed.

Lemma equiv_select N P c : Forall (ok_op N) c ->
  (forall o o', In o c -> In o' c -> P o = true -> P o' = false -> disjoint o o') ->
  equiv N c (filter P c ++ filter (fun o => negb (P o)) c).
Proof.
  intros Hc Hd. exists 1. split; [apply f1_neq_0|]. intros psi x Hx. rewrite run_app, (run_select N P c Hc Hd psi x Hx). ring.
Qed.
End Sem.
Arguments op : clear implicits.
Arguments amp : clear implicits.
