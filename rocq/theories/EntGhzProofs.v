(** Proofs about GHZ circuits (C40). *)
From Coq Require Import QArith.
From Verif Require Import LinAlg Base CountsModel ResultFacts QSem DihedralModel RBSeqModel RBSeqSpec RBSeqActProofs StdGates AccSpec AccLayerProofs AccQotpProofs AccProbProofs EntModel EntSpec.
Open Scope nat_scope.

(** ** Controlled-not gates on basis states *)
Definition cxm (e : nat * nat) (x : bits) : bits := set1 x (snd e) (xorb (nth (fst e) x false) (nth (snd e) x false)).
Definition proper (n : nat) (e : nat * nat) : Prop := fst e < n /\ snd e < n /\ fst e <> snd e.
Definition cxs (edges : list (nat * nat)) : list cinstr := map (fun e => cx_i (fst e) (snd e)) edges.
Definition fwd (edges : list (nat * nat)) (x : bits) : bits := fold_left (fun x e => cxm e x) edges x.
Definition bwd (edges : list (nat * nat)) (x : bits) : bits := fold_right cxm x edges.

Lemma length_cxm e x : length (cxm e x) = length x.
Proof. apply length_set1. Qed.
Lemma length_fwd edges x : length (fwd edges x) = length x.
Proof. revert x; induction edges as [|e l IH]; intros x; [reflexivity|]. cbn. unfold fwd in IH. rewrite IH. apply length_cxm. Qed.
Lemma length_bwd edges x : length (bwd edges x) = length x.
Proof. induction edges as [|e l IH]; [reflexivity|]. cbn. rewrite length_cxm. exact IH. Qed.
Lemma cxm_cxm n e x : proper n e -> length x = n -> cxm e (cxm e x) = x.
Proof.
  intros (H1 & H2 & H3) Hx. unfold cxm at 1. assert (E : xorb (nth (fst e) (cxm e x) false) (nth (snd e) (cxm e x) false) = nth (snd e) x false).
  { unfold cxm. rewrite nth_set1_ne by congruence. rewrite nth_set1_eq by lia. destruct (nth (fst e) x false), (nth (snd e) x false); reflexivity. }
  rewrite E. unfold cxm. rewrite set1_set1. apply set1_same.
Qed.
Lemma fwd_bwd n edges x : Forall (proper n) edges -> length x = n -> fwd edges (bwd edges x) = x.
Proof.
  intros H. revert x. induction H as [|e l He Hl IH]; intros x Hx; [reflexivity|]. cbn [bwd fold_right fwd fold_left].
  rewrite (cxm_cxm n); [apply IH, Hx|exact He|]. fold (bwd l x). rewrite length_bwd. exact Hx.
Qed.
Lemma bwd_fwd n edges x : Forall (proper n) edges -> length x = n -> bwd edges (fwd edges x) = x.
Proof.
  intros H. revert x. induction H as [|e l He Hl IH]; intros x Hx; [reflexivity|]. cbn [bwd fold_right fwd fold_left].
  fold (bwd l (fold_left (fun x e => cxm e x) l (cxm e x))). fold (fwd l (cxm e x)). rewrite IH by (rewrite length_cxm; exact Hx). apply (cxm_cxm n); assumption.
Qed.

(** Basis states of sets of qubits. *)
Definition chi (n : nat) (s : list nat) : bits := map (fun j => mem j s) (seq 0 n).
Lemma length_chi n s : length (chi n s) = n.
Proof. unfold chi. rewrite map_length, seq_length. reflexivity. Qed.
Lemma nth_chi n s j : j < n -> nth j (chi n s) false = mem j s.
Proof. intros H. unfold chi. rewrite (nth_indep _ false (mem 0 s)) by (rewrite map_length, seq_length; exact H). rewrite map_nth with (f := fun j => mem j s). rewrite seq_nth by exact H. reflexivity. Qed.
Lemma chi_step n s c t : c < n -> t < n -> In c s -> ~ In t s -> cxm (c, t) (chi n s) = chi n (s ++ [t]).
Proof.
  intros Hc Ht Ic It. apply bits_ext; [rewrite length_cxm, !length_chi; reflexivity|]. rewrite length_cxm, length_chi. intros j Hj. unfold cxm. cbn [fst snd].
  rewrite nth_set1, !nth_chi, length_chi by assumption. unfold mem at 4. rewrite existsb_app. fold (mem j s). cbn [existsb]. rewrite orb_false_r.
  destruct (Nat.ltb_spec t n); [|lia]. rewrite andb_true_r. destruct (Nat.eqb_spec j t) as [->|Hne].
  - apply mem_In in Ic. apply mem_not_In in It. rewrite Ic, It, eqb_refl. reflexivity.
  - apply (proj2 (eqb_neq _ _)) in Hne. rewrite Hne, orb_false_r. reflexivity.
Qed.
Lemma fwd_chi n edges s : Forall (proper n) edges -> grows s edges -> fwd edges (chi n s) = chi n (s ++ map snd edges).
Proof.
  intros H. revert s. induction H as [|[c t] l (H1 & H2 & H3) Hl IH]; intros s G; cbn [map]; [rewrite app_nil_r; reflexivity|].
  destruct G as (G1 & G2 & G3). cbn [fwd fold_left]. fold (fwd l (cxm (c, t) (chi n s))). cbn [fst snd] in *. rewrite chi_step by assumption. rewrite IH by exact G3.
  rewrite <- app_assoc. reflexivity.
Qed.
Lemma fwd_zeros n edges : Forall (proper n) edges -> fwd edges (zeros n) = zeros n.
Proof.
  intros H. induction H as [|e l He Hl IH]; [reflexivity|]. cbn [fwd fold_left]. replace (cxm e (zeros n)) with (zeros n); [exact IH|].
  unfold cxm, zeros. rewrite !nth_repeat. cbn [xorb]. symmetry. rewrite <- (set1_same (repeat false n) (snd e)) at 2. rewrite nth_repeat. reflexivity.
Qed.
Lemma chi_one n : chi n [0] = first_one n.
Proof.
  apply bits_ext; [unfold first_one, zeros; rewrite length_set1, repeat_length; apply length_chi|]. rewrite length_chi. intros j Hj. rewrite nth_chi by exact Hj.
  unfold first_one, zeros. rewrite nth_set1, nth_repeat, repeat_length. unfold mem. cbn [existsb]. rewrite orb_false_r. destruct (Nat.ltb_spec 0 n); [|lia]. rewrite andb_true_r. destruct (Nat.eqb_spec j 0) as [->|H1]; [reflexivity|]. apply eqb_neq. exact H1.
Qed.
Lemma chi_all n s : (forall j, j < n -> In j s) -> chi n s = ones n.
Proof.
  intros H. apply bits_ext; [unfold ones; rewrite repeat_length; apply length_chi|]. rewrite length_chi. intros j Hj. rewrite nth_chi by exact Hj.
  unfold ones. rewrite (nth_indep _ false true) by (rewrite repeat_length; exact Hj). rewrite nth_repeat. apply mem_In, H, Hj.
Qed.
Lemma first_one_neq n : 0 < n -> first_one n <> zeros n.
Proof. intros H E. apply (f_equal (fun l => nth 0 l false)) in E. unfold first_one, zeros in E. rewrite nth_set1_eq in E by (rewrite repeat_length; exact H). rewrite nth_repeat in E. discriminate. Qed.
Lemma ones_neq n : 0 < n -> ones n <> zeros n.
Proof. intros H. destruct n; [lia|]. discriminate. Qed.
Lemma length_zeros n : length (zeros n) = n. Proof. apply repeat_length. Qed.
Lemma length_ones n : length (ones n) = n. Proof. apply repeat_length. Qed.
Lemma length_first n : length (first_one n) = n. Proof. unfold first_one. rewrite length_set1. apply length_zeros. Qed.

(** A tree over all the qubits. *)
Record tree (n : nat) (edges : list (nat * nat)) : Prop := {
  tr_proper : Forall (proper n) edges;
  tr_grows : grows [0] edges;
  tr_all : forall j, j < n -> In j (0 :: map snd edges)
}.
Lemma tree_fwd n edges : tree n edges -> fwd edges (first_one n) = ones n.
Proof. intros [H1 H2 H3]. rewrite <- chi_one, (fwd_chi n edges [0] H1 H2). apply chi_all, H3. Qed.

Section Amp.
Context {F : Type} {HF : Fld F}.
Add Field FldFieldE : fth.
Local Open Scope fld_scope.
Variable gmat : pystr -> list Q -> bits -> bits -> F.
Variables r i : F.
Hypothesis Hstd : std_gates gmat r i.
Notation ops_of c := (map (op_of gmat) (gates c)).

Lemma run_cxs n edges psi x : Forall (proper n) edges -> length x = n -> run (ops_of (cxs edges)) psi x = psi (bwd edges x).
Proof.
  intros H. revert psi x. induction H as [|e l He Hl IH]; intros psi x Hx; [reflexivity|]. cbn [cxs map]. cbn [gates flat_map app map run fold_left]. fold (gates (cxs l)).
  change (run (ops_of (cxs l)) (apply (op_of gmat (gq "cx" [fst e; snd e])) psi) x = psi (bwd (e :: l) x)). rewrite IH by exact Hx.
  rewrite (apply_cx gmat r i Hstd) by (apply He). cbn [bwd fold_right]. fold (bwd l x). unfold cxm. rewrite xorb_comm. reflexivity.
Qed.
Lemma run_rev_cxs n edges psi x : Forall (proper n) edges -> length x = n -> run (ops_of (cxs (rev edges))) psi x = psi (fwd edges x).
Proof.
  intros H Hx. rewrite (run_cxs n) by (auto; apply Forall_rev; exact H). f_equal. unfold bwd, fwd. rewrite fold_left_rev_right. reflexivity.
Qed.

Lemma set_first n x : (0 < n)%nat -> length x = n -> (set1 x 0 false = zeros n <-> x = zeros n \/ x = first_one n) /\ (set1 x 0 true = first_one n <-> x = zeros n \/ x = first_one n).
Proof.
  intros Hn Hx. destruct n as [|n]; [lia|]. destruct x as [|b x]; [discriminate|]. unfold first_one, zeros. cbn [set1 repeat].
  split; (split; [intros E; injection E as ->; destruct b; auto | intros [E|E]; injection E as -> ->; reflexivity]).
Qed.
Lemma set_first_ne n x : (0 < n)%nat -> length x = n -> set1 x 0 true <> zeros n /\ set1 x 0 false <> first_one n.
Proof.
  intros Hn Hx. destruct n as [|n]; [lia|]. destruct x as [|b x]; [discriminate|]. unfold first_one, zeros. cbn [set1 repeat]. split; discriminate.
Qed.

Lemma h_ground_amp n x : (0 < n)%nat -> length x = n -> apply (op_of gmat (gq "h" [0%nat])) (ground n) x = if mem x [zeros n; first_one n] then r else 0.
Proof.
  intros Hn Hx. rewrite (apply_h gmat r i Hstd). unfold ground. fold (zeros n). destruct (set_first n x Hn Hx) as [A _]. destruct (set_first_ne n x Hn Hx) as [B _].
  destruct (eqb_spec (set1 x 0 true) (zeros n)) as [E|_]; [contradiction|]. destruct (eqb_spec (set1 x 0 false) (zeros n)) as [E|E].
  - apply A in E. replace (mem x [zeros n; first_one n]) with true; [ring|]. symmetry. apply mem_In. destruct E as [->| ->]; cbn; auto.
  - replace (mem x [zeros n; first_one n]) with false; [ring|]. symmetry. apply mem_not_In. intros [H|[H|[]]]; apply E, A; auto.
Qed.

(** The state prepared by a tree. *)
Theorem tree_ghz n edges : (0 < n)%nat -> tree n edges -> eqa n (run (ops_of (had 0 :: cxs edges)) (ground n)) (ghz r n).
Proof.
  intros Hn HT x Hx. pose proof (tr_proper _ _ HT) as Hp.
  change (run (ops_of (cxs edges)) (apply (op_of gmat (gq "h" [0%nat])) (ground n)) x = ghz r n x).
  rewrite (run_cxs n) by assumption. rewrite h_ground_amp by (auto; rewrite length_bwd; exact Hx). unfold ghz.
  assert (E : mem (bwd edges x) [zeros n; first_one n] = mem x [zeros n; ones n]); [|rewrite E; reflexivity].
  apply eq_true_iff_eq. rewrite !mem_In. cbn [In]. split.
  - intros [H|[H|[]]].
    + left. rewrite <- (fwd_bwd n edges x Hp Hx), <- H. symmetry. apply fwd_zeros, Hp.
    + right; left. rewrite <- (fwd_bwd n edges x Hp Hx), <- H. symmetry. apply tree_fwd, HT.
  - intros [H|[H|[]]]; subst x.
    + left. rewrite <- (fwd_zeros n edges Hp) at 2. symmetry. apply (bwd_fwd n); [exact Hp|apply length_zeros].
    + right; left. rewrite <- (tree_fwd n edges HT). symmetry. apply (bwd_fwd n); [exact Hp|apply length_first].
Qed.

(** ** Rotations *)
Lemma fpow_add (a : F) k l : fpow a (k + l) = fpow a k * fpow a l.
Proof. induction k as [|k IH]; cbn [fpow Nat.add]; [ring|]. rewrite IH. ring. Qed.
Lemma run_u1s delta e psi x : u1_phase gmat delta e -> forall l, run (ops_of (map (gate1 "u1" [delta]) l)) psi x = fpow e (length (filter (fun q => nth q x false) l)) * psi x.
Proof.
  intros Hu l. revert psi. induction l as [|q l IH]; intros psi; [cbn; ring|]. cbn [map]. cbn [gates flat_map app map run fold_left].
  change (run (ops_of (map (gate1 "u1" [delta]) l)) (apply (op_of gmat {| gname := str "u1"; gparams := [delta]; gqubits := [q] |}) psi) x = fpow e (length (filter (fun q => nth q x false) (q :: l))) * psi x).
  rewrite IH, apply1, !(u1p _ _ _ Hu). cbn [filter]. assert (Es : psi x = psi (set1 x q (nth q x false))) by (rewrite set1_same; reflexivity). rewrite Es.
  destruct (nth q x false); cbn [xorb length fpow]; ring.
Qed.
Lemma weight_seq x : length (filter (fun q => nth q x false) (seq 0 (length x))) = weight x.
Proof.
  unfold weight. induction x as [|b x IH] using rev_ind; [reflexivity|]. rewrite app_length. cbn [length]. rewrite Nat.add_1_r, seq_S. cbn [Nat.add].
  rewrite !filter_app, !app_length. cbn [filter]. rewrite app_nth2 by lia. rewrite Nat.sub_diag. cbn [nth]. f_equal; [|destruct b; reflexivity].
  rewrite <- IH. f_equal. apply filter_ext_in. intros q Hq. apply in_seq in Hq. apply app_nth1. lia.
Qed.
Lemma x_all_xz n : on_all n "x" [] = AccModel.xz_gates n (zeros n) (ones n).
Proof.
  unfold on_all, AccModel.xz_gates. idtac.
  assert (G : forall l, (forall q, In q l -> (q < n)%nat) -> map (gate1 "x" []) l = flat_map (fun q => (if AccModel.bit (ones n) q then [AccModel.x_gate q] else []) ++ (if AccModel.bit (zeros n) q then [AccModel.z_gate q] else [])) l).
  { induction l as [|q l IH]; intros H; [reflexivity|]. cbn [map flat_map]. rewrite <- IH by (intros; apply H; right; assumption).
    unfold AccModel.bit, zeros, ones. rewrite nth_repeat. rewrite (nth_indep _ false true) by (rewrite repeat_length; apply H; left; reflexivity). rewrite nth_repeat. reflexivity. }
  apply G. intros q Hq. apply in_seq in Hq. lia.
Qed.
Lemma run_x_all n psi x : length x = n -> run (ops_of (on_all n "x" [])) psi x = psi (map negb x).
Proof.
  intros Hx. rewrite x_all_xz, (run_xz gmat r i Hstd) by (auto; apply length_ones). unfold pauli. rewrite dot_comm. unfold zeros. rewrite dot_repeat. cbn [sgn].
  replace (xors x (ones n)) with (map negb x); [ring|]. subst n. clear. unfold xors, ones. induction x as [|b x IH]; [reflexivity|]. cbn. rewrite IH, xorb_true_r. reflexivity.
Qed.

(** ** Multiple quantum coherence *)
Definition mqc_amp (e : F) (n : nat) : amp F := fun x =>
  if eqb x (zeros n) then r * r * (fpow e n + 1) else if eqb x (first_one n) then r * r * (fpow e n - 1) else 0.

Lemma weight_ones n : weight (ones n) = n.
Proof. unfold weight, ones. induction n as [|n IH]; [reflexivity|]. cbn. rewrite IH. reflexivity. Qed.
Lemma weight_zeros n : weight (zeros n) = 0%nat.
Proof. unfold weight, zeros. induction n as [|n IH]; [reflexivity|]. cbn. exact IH. Qed.
Lemma negb_zeros n : map negb (zeros n) = ones n.
Proof. unfold zeros, ones. induction n as [|n IH]; cbn; congruence. Qed.
Lemma negb_ones n : map negb (ones n) = zeros n.
Proof. unfold zeros, ones. induction n as [|n IH]; cbn; congruence. Qed.
Lemma negb_negb x : map negb (map negb x) = x.
Proof. rewrite map_map. rewrite <- (map_id x) at 2. apply map_ext, negb_involutive. Qed.

Lemma gates_inverse c : gates (inverse c) = rev (gates c).
Proof.
  unfold inverse, gates. induction c as [|a c IH]; [reflexivity|]. cbn [rev flat_map]. rewrite flat_map_app, IH. rewrite rev_app_distr. f_equal. cbn. destruct a; reflexivity.
Qed.
Lemma gates_cxs_rev edges : gates (cxs (rev edges)) = rev (gates (cxs edges)).
Proof. rewrite <- gates_inverse. unfold inverse, cxs. rewrite map_rev. reflexivity. Qed.

Theorem mqc_final n edges delta e circ : (0 < n)%nat -> tree n edges -> u1_phase gmat delta e -> gates circ = gates (had 0 :: cxs edges) ->
  eqa n (run (ops_of (circ ++ on_all n "u1" [delta] ++ on_all n "x" [] ++ inverse circ)) (ground n)) (mqc_amp e n).
Proof.
  intros Hn HT Hu Hc x Hx. pose proof (tr_proper _ _ HT) as Hp. rewrite !gates_app, !map_app, !run_app.
  rewrite gates_inverse, Hc. change (had 0 :: cxs edges) with ([had 0] ++ cxs edges). rewrite gates_app, rev_app_distr, map_app, run_app, <- gates_cxs_rev.
  set (psi := run (ops_of ([had 0] ++ cxs edges)) (ground n)).
  set (phi := run (ops_of (on_all n "x" [])) (run (ops_of (on_all n "u1" [delta])) (run (map (op_of gmat) (gates [had 0] ++ gates (cxs edges))) (ground n)))).
  assert (Ephi : forall y, length y = n -> phi y = if eqb y (zeros n) then r * fpow e n else if eqb y (ones n) then r else 0).
  { intros y Hy. unfold phi. rewrite run_x_all by exact Hy. unfold on_all. rewrite (run_u1s delta e) by exact Hu.
    replace (seq 0 n) with (seq 0 (length (map negb y))) by (rewrite map_length, Hy; reflexivity). rewrite weight_seq. rewrite <- gates_app.
    rewrite (tree_ghz n edges Hn HT) by (rewrite map_length; exact Hy). unfold ghz. destruct (eqb_spec y (zeros n)) as [->|Hz].
    - rewrite negb_zeros, weight_ones. replace (mem (ones n) [zeros n; ones n]) with true; [ring|]. symmetry. apply mem_In. cbn; auto.
    - destruct (eqb_spec y (ones n)) as [->|Ho].
      + rewrite negb_ones, weight_zeros. replace (mem (zeros n) [zeros n; ones n]) with true; [cbn; ring|]. symmetry. apply mem_In. cbn; auto.
      + replace (mem (map negb y) [zeros n; ones n]) with false; [ring|]. symmetry. apply mem_not_In. intros [H|[H|[]]].
        * apply Ho. rewrite <- (negb_negb y), <- H. apply negb_zeros.
        * apply Hz. rewrite <- (negb_negb y), <- H. apply negb_ones. }
  assert (Ephi2 : forall y, length y = n -> run (ops_of (cxs (rev edges))) phi y = if eqb y (zeros n) then r * fpow e n else if eqb y (first_one n) then r else 0).
  { intros y Hy. rewrite (run_rev_cxs n) by assumption. rewrite Ephi by (rewrite length_fwd; exact Hy).
    replace (eqb (fwd edges y) (zeros n)) with (eqb y (zeros n)).
    - replace (eqb (fwd edges y) (ones n)) with (eqb y (first_one n)); [reflexivity|]. apply eq_true_iff_eq. rewrite !eqb_eq. split.
      + intros ->. apply tree_fwd, HT.
      + intros H. rewrite <- (bwd_fwd n edges y Hp Hy), H, <- (tree_fwd n edges HT). apply (bwd_fwd n); [exact Hp|apply length_first].
    - apply eq_true_iff_eq. rewrite !eqb_eq. split.
      + intros ->. apply fwd_zeros, Hp.
      + intros H. rewrite <- (bwd_fwd n edges y Hp Hy), H, <- (fwd_zeros n edges Hp) at 1. apply (bwd_fwd n); [exact Hp|apply length_zeros]. }
  change (apply (op_of gmat (gq "h" [0%nat])) (run (ops_of (cxs (rev edges))) phi) x = mqc_amp e n x). rewrite (apply_h gmat r i Hstd), !Ephi2 by (rewrite length_set1; exact Hx).
  unfold mqc_amp. destruct (set_first n x Hn Hx) as [A B]. destruct (set_first_ne n x Hn Hx) as [A' B'].
  destruct (eqb_spec (set1 x 0 true) (zeros n)) as [E|_]; [contradiction|]. destruct (eqb_spec (set1 x 0 false) (first_one n)) as [E|_]; [contradiction|].
  destruct (eqb_spec x (zeros n)) as [Ez|Ez].
  - destruct (eqb_spec (set1 x 0 false) (zeros n)) as [_|K]; [|exfalso; apply K, A; auto]. destruct (eqb_spec (set1 x 0 true) (first_one n)) as [_|K]; [|exfalso; apply K, B; auto].
    rewrite Ez. unfold zeros. rewrite nth_repeat. cbn [sgn]. ring.
  - destruct (eqb_spec x (first_one n)) as [Ef|Ef].
    + destruct (eqb_spec (set1 x 0 false) (zeros n)) as [_|K]; [|exfalso; apply K, A; auto]. destruct (eqb_spec (set1 x 0 true) (first_one n)) as [_|K]; [|exfalso; apply K, B; auto].
      rewrite Ef. unfold first_one. rewrite nth_set1_eq by (rewrite length_zeros; exact Hn). cbn [sgn]. ring.
    + destruct (eqb_spec (set1 x 0 false) (zeros n)) as [K|_]; [apply A in K; tauto|]. destruct (eqb_spec (set1 x 0 true) (first_one n)) as [K|_]; [apply B in K; tauto|]. ring.
Qed.
End Amp.
