(** The default gate set, and what the optimisation cannot do. *)
From Coq Require Import QArith Reals Lra.
From Coquelicot Require Import Coquelicot.
From Verif Require Import LinAlg Base ResultFacts PyStr CtmpSpec EntSpec LinInv TomoModel TomoFitModel TomoFitSpec TomoFitProofs TomoPsdSpec TomoPsdProofs GstModel GstInvSpec GstInvProofs GstOptModel GstOptSpec GstPauliProofs GstEncProofs GstConsProofs GstFitProofs GstGaugeProofs.
Local Open Scope string_scope.
Local Open Scope list_scope.
Local Open Scope nat_scope.

(** ** The default gate set *)
Definition of_rows (l : list (list R)) : rmat := fun i j => nth j (nth i l []) 0%R.
Definition m_id : rmat := of_rows [[1; 0; 0; 0]; [0; 1; 0; 0]; [0; 0; 1; 0]; [0; 0; 0; 1]]%R.
Definition m_rx : rmat := of_rows [[1; 0; 0; 0]; [0; 1; 0; 0]; [0; 0; 0; -1]; [0; 0; 1; 0]]%R.
Definition m_ry : rmat := of_rows [[1; 0; 0; 0]; [0; 0; 0; -1]; [0; 0; 1; 0]; [0; 1; 0; 0]]%R.
Definition d_gates : list pystr := [str "Id"; str "X_Rot_90"; str "Y_Rot_90"].
Definition d_spam : list pystr := [str "F0"; str "F1"; str "F2"; str "F3"].
Definition d_mats : dict pystr rmat := [(str "Id", m_id); (str "X_Rot_90", m_rx); (str "Y_Rot_90", m_ry)].
Definition d_spec : dict pystr (list pystr) := [(str "F0", [str "Id"]); (str "F1", [str "X_Rot_90"]); (str "F2", [str "Y_Rot_90"]); (str "F3", [str "X_Rot_90"; str "X_Rot_90"])].
Definition d_ops (f : pystr) : list pystr := match dget d_spec f with Some l => l | None => [] end.
Definition d_G (g : pystr) : rmat := match dget d_mats g with Some m => m | None => fun _ _ => 0%R end.
Definition d_S (f : pystr) : rmat := fun i j => after 4 (map d_G (d_ops f)) (fun k => if k =? j then 1%R else 0%R) i.
Definition d_probs (v : pyval) : option R :=
  match v with
  | VTup [VStr a] => Some (seq_prob 4 default_vec default_vec [d_S a])
  | VTup [VStr a; VStr b] => Some (seq_prob 4 default_vec default_vec [d_S a; d_S b])
  | VTup [VStr a; VStr b; VStr c] => Some (seq_prob 4 default_vec default_vec [d_S a; d_G b; d_S c])
  | _ => None
  end.
Lemma d_exact : exact_gst 4 d_spam d_gates default_vec default_vec d_G d_S d_probs.
Proof. repeat split. Qed.
Lemma d_spam_of : spam_of d_gates d_spam d_spec d_ops.
Proof.
  split; [reflexivity|]. intros f Hf. cbn in Hf. destruct Hf as [<-|[<-|[<-|[<-|[]]]]]; (split; [reflexivity|intros g Hg; vm_compute in Hg; vm_compute; tauto]).
Qed.
Lemma d_order : in_order d_spam d_ops d_G d_S.
Proof.
  intros f _ v i Hi. unfold d_S. generalize (map d_G (d_ops f)). intros Ms. revert i Hi.
  assert (A : forall w (c : nat -> nat -> R), (forall i, i < 4 -> mapply (seq 0 4) (fun i j => c j i) v i = w i) -> forall i, i < 4 -> mapply (seq 0 4) (fun i j => after 4 Ms (c j) i) v i = after 4 Ms w i).
  { induction Ms as [|M Ms IH]; intros w c H i Hi; [apply H, Hi|]. cbn [after fold_left]. apply (IH (mapply (seq 0 4) M w) (fun j => mapply (seq 0 4) M (c j))); [|exact Hi]. intros k Hk.
    transitivity (mapply (seq 0 4) M (mapply (seq 0 4) (fun i j => c j i) v) k); [rewrite mapply_mmul; reflexivity|]. apply mapply_idx; auto. }
  apply A. intros i Hi. exact (mapply_id 4 (fun i j => if i =? j then 1%R else 0%R) v i (fun a b _ _ => eq_refl) Hi).
Qed.
Local Notation s := (sqrt (1 / 2)).
Lemma ss : (s * s = 1 / 2)%R. Proof. apply sqrt_sqrt. lra. Qed.
Lemma s_pos : (0 < s)%R. Proof. apply sqrt_lt_R0. lra. Qed.
Ltac rnum := cbv -[Rplus Rmult Ropp Rinv Rdiv Rminus sqrt IZR].
Ltac num := rnum; pose proof ss; pose proof s_pos; nra.
Definition d_list (j : nat) : list rmat := nth j [[m_id]; [m_rx]; [m_ry]; [m_rx; m_rx]] [].
Lemma d_list_ok j : j < 4 -> map d_G (d_ops (nth j d_spam [])) = d_list j.
Proof. intros Hj. do 4 (destruct j as [|j]; [reflexivity|]). lia. Qed.
(** The matrix of the prepared states. *)
Definition d_K : rmat := of_rows [[s; s; s; s]; [0; 0; -s; 0]; [0; -s; 0; 0]; [s; 0; 0; -s]]%R.
Lemma K_ok i j : i < 4 -> j < 4 -> after 4 [d_S (nth j d_spam [])] default_vec i = d_K i j.
Proof.
  intros Hi Hj. cbn [after fold_left]. assert (In (nth j d_spam []) d_spam) as HI by (apply nth_In; exact Hj). rewrite (d_order _ HI), d_list_ok by assumption.
  do 4 (destruct j as [|j]; [do 4 (destruct i as [|i]; [rnum; lra|]); lia|]). lia.
Qed.
Definition d_inv : rmat := of_rows [[0; 1; 1; -1]; [1; -2; 0; 1]; [1; 0; -2; 1]; [-1; 1; 1; 0]]%R.
Definition d_gram : rmat := of_rows [[1; 1/2; 1/2; 0]; [1/2; 0; 1/2; 1/2]; [1/2; 1/2; 0; 1/2]; [0; 1/2; 1/2; 1]]%R.
Lemma gram_ok i j : i < 4 -> j < 4 -> gram_matrix 4 d_spam default_vec default_vec d_S i j = d_gram i j.
Proof.
  intros Hi Hj. unfold gram_matrix, seq_prob. cbn [after fold_left]. assert (HI : In (nth i d_spam []) d_spam) by (apply nth_In; exact Hi).
  rewrite (fsum_map_ext _ (fun k => fmul (default_vec k) (after 4 (d_list i) (fun l => d_K l j) k))).
  - do 4 (destruct i as [|i]; [do 4 (destruct j as [|j]; [num|]); lia|]). lia.
  - intros k Hk. apply in_seq in Hk. rewrite (d_order _ HI), d_list_ok by lia. f_equal. apply after_ext; [|lia]. intros l Hl. exact (K_ok l j Hl Hj).
Qed.
Lemma d_inverse M : (forall i j, i < 4 -> j < 4 -> M i j = gram_matrix 4 d_spam default_vec default_vec d_S i j) -> inverse_of 4 d_inv M.
Proof.
  intros H i j Hi Hj. assert (E : forall a b, a < 4 -> b < 4 -> M a b = d_gram a b) by (intros a b Ha Hb; rewrite H, gram_ok by assumption; reflexivity).
  rewrite (mmul_at 4 d_inv d_inv M d_gram), (mmul_at 4 M d_gram d_inv d_inv) by auto.
  do 4 (destruct i as [|i]; [do 4 (destruct j as [|j]; [split; rnum; lra|]); lia|]). lia.
Qed.

(** ** Choi matrices of the default gates *)
Definition outer (d : nat -> C) (k : R) : nat -> nat -> C := fun i j => fmul (RtoC k) (fmul (d i) (Cconj (d j))).
Definition phases (l : list C) : nat -> C := fun i => nth i l (RtoC 0).
Definition ph_id := phases [RtoC 1; RtoC 0; RtoC 0; RtoC 1].
Definition ph_rx := phases [RtoC 1; (0, -1)%R; (0, -1)%R; RtoC 1].
Definition ph_ry := phases [RtoC 1; RtoC (-1); RtoC 1; RtoC 1].
Lemma half_inv : Cinv (RtoC (INR (2 ^ 1))) = RtoC (1 / 2).
Proof. apply injective_projections; cbn; field. Qed.
Ltac cnum := cbv -[Rplus Rmult Ropp Rinv Rdiv Rminus sqrt IZR].
Lemma choi_rows (m : rmat) (P : nat -> nat -> C) :
  same_entries 4 (fun x y => Cmult (RtoC (1 / 2)) (sum_to 4 (fun i => sum_to 4 (fun j => Cmult (RtoC (m i j)) (Cmult (pauli 1 i (x mod 2) (y mod 2)) (pauli 1 j (y / 2) (x / 2))))))) P ->
  same_entries 4 (choi_matrix 1 (m_at (cptm4 m))) P.
Proof.
  intros H x y Hx Hy. destruct (choi_spec (cptm4 m) 1 eq_refl eq_refl) as (k & Ek & _ & _ & S). rewrite <- (S x y Hx Hy). unfold choi_of_ptm in Ek. rewrite (qubits_of_pow (cptm4 m) 1 eq_refl eq_refl) in Ek. cbn [bind] in Ek. injection Ek as <-. rewrite <- half_inv in H. exact (H x y Hx Hy).
Qed.
Ltac rows := apply choi_rows; intros x y Hx Hy; do 4 (destruct x as [|x]; [do 4 (destruct y as [|y]; [apply injective_projections; cnum; lra|]); lia|]); lia.
Lemma choi_id : same_entries 4 (choi_matrix 1 (m_at (cptm4 m_id))) (outer ph_id 1). Proof. rows. Qed.
Lemma choi_rx : same_entries 4 (choi_matrix 1 (m_at (cptm4 m_rx))) (outer ph_rx (1 / 2)). Proof. rows. Qed.
Lemma choi_ry : same_entries 4 (choi_matrix 1 (m_at (cptm4 m_ry))) (outer ph_ry (1 / 2)). Proof. rows. Qed.

Lemma psd_ext dim m m' : same_entries dim m m' -> psd dim m' -> psd dim m.
Proof.
  intros H P u. destruct (P u) as (r & Hr & E). exists r. split; [exact Hr|]. rewrite <- E. apply fsum_map_ext. intros a Ha. apply in_seq in Ha. apply fsum_map_ext. intros b Hb. apply in_seq in Hb. rewrite H by lia. reflexivity.
Qed.
Lemma psd_outer dim d k : (0 <= k)%R -> psd dim (outer d k).
Proof. intros Hk. apply (gram_psd dim _ k [tt] (fun _ => d)); [exact Hk|]. intros a b _ _. unfold outer. cbn [map]. rewrite fsum_cons, fsum_nil. ring. Qed.

(** A Schur decomposition of the matrices of the default gate set. *)
Definition c_id : nat -> nat -> C := fun i j => if i =? j then f1 else f0.
Definition top2 : nat -> nat -> C := fun i j => if (i =? 0) && (j =? 0) then RtoC 2 else f0.
Definition of_crows (l : list (list C)) : nat -> nat -> C := fun i j => nth j (nth i l []) (RtoC 0).
Definition z_id : nat -> nat -> C := of_crows [[RtoC s; RtoC s; RtoC 0; RtoC 0]; [RtoC 0; RtoC 0; RtoC 1; RtoC 0]; [RtoC 0; RtoC 0; RtoC 0; RtoC 1]; [RtoC s; RtoC (- s); RtoC 0; RtoC 0]].
Definition had : nat -> nat -> C := of_crows [[RtoC 1; RtoC 1; RtoC 1; RtoC 1]; [RtoC 1; RtoC (-1); RtoC 1; RtoC (-1)]; [RtoC 1; RtoC 1; RtoC (-1); RtoC (-1)]; [RtoC 1; RtoC (-1); RtoC (-1); RtoC 1]].
Definition d_schur (m : cmat) : (nat -> nat -> C) * (nat -> nat -> C) :=
  if m_rows m =? 2 then (m_at m, c_id)
  else if Req_EM_T (fst (m_at m 1 1)) 0 then (top2, z_id) else (top2, fun i j => fmul (m_at m i 0) (had i j)).
Lemma schur_ext dim m m' t t' z z' : same_entries dim m m' -> same_entries dim t t' -> same_entries dim z z' -> schur_form dim m' t' z' -> schur_form dim m t z.
Proof.
  intros Hm Ht Hz [A B D]. constructor.
  - intros i j Hj Hi. rewrite Ht by lia. apply A; assumption.
  - intros j k Hj Hk. rewrite <- (B j k Hj Hk). apply csumn_ext. intros a Ha. rewrite !Hz by assumption. reflexivity.
  - intros a b Ha Hb. rewrite Hm, (D a b Ha Hb) by assumption. apply csumn_ext. intros i Hi. apply csumn_ext. intros j Hj. rewrite !Hz, Ht by assumption. reflexivity.
Qed.
Lemma schur_vec : schur_on d_schur 2 (square 2 (cvec4 default_vec)).
Proof.
  intros m H1 H2 H. unfold d_schur. rewrite H1. cbn [Nat.eqb fst snd]. apply (schur_ext 2 _ _ _ _ _ _ H H (fun i j _ _ => eq_refl)). constructor.
  - intros i j Hj Hi. assert (i = 1) by lia. assert (j = 0) by lia. subst. reflexivity.
  - intros j k Hj Hk. destruct j as [|[|j]], k as [|[|k]]; try lia; apply injective_projections; cnum; lra.
  - intros j k Hj Hk. destruct j as [|[|j]], k as [|[|k]]; try lia; apply injective_projections; cnum; lra.
Qed.
Ltac c4 := match goal with |- forall i j, i < 4 -> j < 4 -> _ => intros i j Hi Hj; do 4 (destruct i as [|i]; [do 4 (destruct j as [|j]; [apply injective_projections; cnum; pose proof ss as SS; unfold Rdiv in SS; try lra; nra|]); lia|]); lia end.
Lemma form_id : schur_form 4 (outer ph_id 1) top2 z_id.
Proof. constructor; [|c4|c4]. intros i j Hj Hi. destruct i; [lia|]. reflexivity. Qed.
Lemma form_rx : schur_form 4 (outer ph_rx (1 / 2)) top2 (fun i j => fmul (outer ph_rx (1 / 2) i 0) (had i j)).
Proof. constructor; [|c4|c4]. intros i j Hj Hi. destruct i; [lia|]. reflexivity. Qed.
Lemma form_ry : schur_form 4 (outer ph_ry (1 / 2)) top2 (fun i j => fmul (outer ph_ry (1 / 2) i 0) (had i j)).
Proof. constructor; [|c4|c4]. intros i j Hj Hi. destruct i; [lia|]. reflexivity. Qed.
