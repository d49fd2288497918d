(** [partial_trace_super] is the partial trace (C48). *)
From Coq Require Import QArith Reals Lra.
From Coquelicot Require Import Coquelicot.
From Verif Require Import LinAlg LinInv Base ResultFacts CountsModel QSem DihedralModel RBSeqModel CtmpSpec StdGates EntSpec.
From Verif Require Import TomoModel TomoFitModel TomoFitSpec TomoPtrSpec.
Local Open Scope list_scope.
Local Open Scope nat_scope.
Add Field FldFieldPT : (fth (F:=C)).

Section Ptr.
Variables (d1 d2 : nat).
Definition tmp (j a c : nat) : C := if (a =? c / d2) && (c mod d2 =? j) then f1 else f0.
Lemma ptr_entries : m_rows (partial_trace_super d1 d2) = d1 * d1 /\ m_cols (partial_trace_super d1 d2) = d1 * d2 * d1 * d2 /\
  forall a c, 0 < d1 -> 0 < d2 -> m_at (partial_trace_super d1 d2) a c = fsum (map (fun j => fmul (tmp j (a / d1) (c / (d1 * d2))) (tmp j (a mod d1) (c mod (d1 * d2)))) (seq 0 d2)).
Proof.
  unfold partial_trace_super.
  match goal with |- context[fold_left ?f (seq 0 d2) ?m0] => set (F := f); set (M := m0) end.
  assert (G : forall l m, m_rows (fold_left F l m) = m_rows m /\ m_cols (fold_left F l m) = m_cols m /\
    forall a c, 0 < d1 -> 0 < d2 -> m_at (fold_left F l m) a c = fadd (m_at m a c) (fsum (map (fun j => fmul (tmp j (a / d1) (c / (d1 * d2))) (tmp j (a mod d1) (c mod (d1 * d2)))) l))).
  { induction l as [|j l IH]; intros m; [cbn [fold_left map]; repeat split; try reflexivity; intros; rewrite fsum_nil; ring|]. cbn [fold_left]. destruct (IH (F m j)) as (R & Cc & A).
    split; [rewrite R; reflexivity|]. split; [rewrite Cc; reflexivity|]. intros a c H1 H2. rewrite A by assumption. cbn [map]. rewrite fsum_cons.
    assert (E : m_at (F m j) a c = fadd (m_at m a c) (fmul (tmp j (a / d1) (c / (d1 * d2))) (tmp j (a mod d1) (c mod (d1 * d2))))).
    { unfold F, kron. cbn [m_at m_rows m_cols]. rewrite !Nat.mul_1_r, !Nat.div_1_r. change (Cplus ?x ?y) with (fadd x y). f_equal. change (Cmult ?x ?y) with (fmul x y).
      unfold tmp. f_equal; (destruct (_ =? _ / d2)%nat; destruct (_ =? j)%nat; cbn [andb]; change (Cmult ?x ?y) with (fmul x y); change (RtoC 1) with (f1 (F:=C)); change (RtoC 0) with (f0 (F:=C)); ring). }
    rewrite E. ring. }
  destruct (G (seq 0 d2) M) as (R & Cc & A). split; [rewrite R; reflexivity|]. split; [rewrite Cc; reflexivity|]. intros a c H1 H2. rewrite A by assumption. unfold M. cbn [m_at]. change (RtoC 0) with (f0 (F:=C)). ring.
Qed.

(** A sum over the entries of a column-stacked matrix. *)
Lemma sum_pairs (g : nat -> nat -> C) n m : 0 < n -> fsum (map (fun k => g (k / n) (k mod n)) (seq 0 (m * n))) = fsum (map (fun c => fsum (map (g c) (seq 0 n))) (seq 0 m)).
Proof.
  intros Hn. induction m as [|m IH]; [reflexivity|]. rewrite seq_S, map_app, fsum_app, <- IH. cbn [map Nat.add]. rewrite fsum_cons, fsum_nil.
  replace (S m * n) with (m * n + n) by lia. rewrite seq_app, map_app, fsum_app. f_equal. cbn [Nat.add].
  transitivity (fsum (map (g m) (seq 0 n))); [|ring].
  replace (seq (m * n) n) with (map (fun r => m * n + r) (seq 0 n)) by (clear; generalize (m * n) as s; intros s; induction n as [|n IH]; [reflexivity|rewrite !seq_S, map_app, IH; reflexivity]).
  rewrite map_map. apply fsum_map_ext. intros r Hr. apply in_seq in Hr. rewrite Nat.add_comm. rewrite Nat.div_add, Nat.mod_add by lia. rewrite Nat.div_small, Nat.mod_small by lia. reflexivity.
Qed.
Lemma pick_col (g : nat -> C) j a : 0 < d2 -> a < d1 -> j < d2 -> fsum (map (fun c => fmul (tmp j a c) (g c)) (seq 0 (d1 * d2))) = g (a * d2 + j).
Proof.
  intros H2 Ha Hj. transitivity (fsum (map (fun c => if Nat.eqb (a * d2 + j) c then g c else f0) (seq 0 (d1 * d2)))); [|apply pick_nat; nia].
  apply fsum_map_ext. intros c Hc. unfold tmp. destruct (Nat.eqb_spec (a * d2 + j) c) as [<-|N].
  - rewrite Nat.add_comm, Nat.div_add, Nat.mod_add by lia. rewrite Nat.div_small, Nat.mod_small by lia. rewrite !Nat.eqb_refl. cbn [andb]. ring.
  - destruct (Nat.eqb_spec a (c / d2)) as [E1|_]; [|cbn [andb]; ring]. destruct (Nat.eqb_spec (c mod d2) j) as [E2|_]; [|cbn [andb]; ring]. exfalso. apply N. rewrite (Nat.div_mod c d2) by lia. rewrite <- E1, E2. lia.
Qed.
Lemma ptr_lemma M r c : r < d1 -> c < d1 ->
  fsum (map (fun k => fmul (m_at (partial_trace_super d1 d2) (r + c * d1) k) (M (k mod (d1 * d2)) (k / (d1 * d2)))) (seq 0 (d1 * d2 * (d1 * d2)))) = trace_second d2 M r c.
Proof.
  intros Hr Hc. destruct (Nat.eq_dec d2 0) as [->|N2]; [rewrite !Nat.mul_0_r; reflexivity|].
  destruct ptr_entries as (_ & _ & A).
  transitivity (fsum (map (fun j => fsum (map (fun k => fmul (fmul (tmp j c (k / (d1 * d2))) (tmp j r (k mod (d1 * d2)))) (M (k mod (d1 * d2)) (k / (d1 * d2)))) (seq 0 (d1 * d2 * (d1 * d2))))) (seq 0 d2))).
  - rewrite fsum_swap. apply fsum_map_ext. intros k _. rewrite A by lia. rewrite Nat.div_add, Nat.mod_add by lia. rewrite Nat.div_small, Nat.mod_small by lia. cbn [Nat.add]. rewrite <- fsum_map_mul_r. reflexivity.
  - unfold trace_second. apply fsum_map_ext. intros j Hj. apply in_seq in Hj.
    rewrite (sum_pairs (fun q p => fmul (fmul (tmp j c q) (tmp j r p)) (M p q))) by nia.
    rewrite <- (pick_col (fun q => M (r * d2 + j) q) j c) by lia. apply fsum_map_ext. intros q _.
    rewrite <- (pick_col (fun p => M p q) j r) by lia. rewrite <- fsum_map_mul. apply fsum_map_ext. intros p _. ring.
Qed.
End Ptr.
