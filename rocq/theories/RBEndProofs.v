(** Matrices of circuits, and benchmarks from circuits to estimates (C79). *)
From Coq Require Import QArith Qreals Reals Lra Lia Permutation.
From Coquelicot Require Import Coquelicot.
From Verif Require Import LinAlg Base PyStr QSem DihedralModel RBSeqModel RBSeqSpec ResultFacts RBSeqProofs RBSeqActProofs RBSeqRunProofs RBSeqTopProofs RBSeqIdProofs RBSeqFinalProofs
  TomoLayerProofs AccProbProofs RBFitModel CtmpSpec EntSpec GstOptSpec GstPauliProofs IQSpec RBEstSpec RBNoiseProofs RBEndSpec.
Local Open Scope list_scope.
Local Open Scope nat_scope.

(** ** Indices and bits *)
Lemma bits_length n i : length (bits_at n i) = n. Proof. unfold bits_at. rewrite map_length. apply seq_length. Qed.
Lemma testbit_high i n k : i < 2 ^ n -> n <= k -> Nat.testbit i k = false.
Proof. intros H L. rewrite <- (Nat.mod_small i (2 ^ n) H). apply Nat.mod_pow2_bits_high. exact L. Qed.
Lemma bits_inj n i j : i < 2 ^ n -> j < 2 ^ n -> bits_at n i = bits_at n j -> i = j.
Proof.
  intros Hi Hj E. apply Nat.bits_inj. intros k. destruct (Nat.lt_ge_cases k n) as [L|L].
  - assert (E' : nth k (bits_at n i) false = nth k (bits_at n j) false) by (rewrite E; reflexivity). unfold bits_at in E'.
    rewrite !(nth_indep _ false (Nat.testbit i 0)) in E' by (rewrite map_length, seq_length; exact L). rewrite map_nth in E'.
    rewrite (nth_indep _ _ (Nat.testbit j 0)) in E' by (rewrite map_length, seq_length; exact L). rewrite map_nth, !seq_nth in E' by exact L. exact E'.
  - rewrite !(testbit_high _ n) by assumption. reflexivity.
Qed.
Lemma cube_size n : length (cube n) = 2 ^ n.
Proof. induction n as [|n IH]; [reflexivity|]. cbn [cube]. rewrite app_length, !map_length, IH. cbn. lia. Qed.
Lemma indices n : Permutation (map (bits_at n) (seq 0 (2 ^ n))) (cube n).
Proof.
  apply NoDup_Permutation_bis.
  - assert (G : forall l, NoDup l -> (forall i, In i l -> i < 2 ^ n) -> NoDup (map (bits_at n) l)).
    { induction l as [|a l IH]; intros Hd Hb; cbn [map]; [constructor|]. apply NoDup_cons_iff in Hd. destruct Hd as [Ha Hd]. constructor; [|apply IH; [exact Hd|intros i Hi; apply Hb; right; exact Hi]].
      intros Hi. apply in_map_iff in Hi. destruct Hi as (b & E & Hi). apply bits_inj in E; [subst; contradiction|apply Hb; right; exact Hi|apply Hb; left; reflexivity]. }
    apply G; [apply seq_NoDup|]. intros i Hi. apply in_seq in Hi. lia.
  - rewrite map_length, seq_length, cube_size. lia.
  - intros x Hx. apply in_map_iff in Hx. destruct Hx as (i & <- & _). apply in_cube, bits_length.
Qed.
Lemma sum_bits n (f : bits -> C) : csumn (2 ^ n) (fun i => f (bits_at n i)) = fsum (map f (cube n)).
Proof. unfold csumn. rewrite <- (fsum_perm _ _ (Permutation_map f (indices n))), map_map. reflexivity. Qed.

(** ** Circuits as matrices *)
Definition point (y : bits) : amp C := fun x => if eqb x y then f1 else f0 : C.
Lemma expand n (psi : amp C) x : length x = n -> psi x = fsum (map (fun y => fmul (psi y) (point y x)) (cube n)).
Proof.
  intros Hx. rewrite <- (fsum_pick (cube n) x psi (cube_NoDup n)) by (apply in_cube; exact Hx). apply fsum_map_ext. intros y _. unfold point. destruct (eqb x y); toC; ring.
Qed.
Lemma apply_expand n (o : QSem.op C) (psi : amp C) x : length x = n -> apply o psi x = fsum (map (fun y => fmul (psi y) (apply o (point y) x)) (cube n)).
Proof.
  intros Hx. unfold apply. transitivity (fsum (map (fun y => fsum (map (fun b => fmul (fmul (psi y) (o_mat o (rd (o_qs o) x) b)) (point y (wr (o_qs o) b x))) (cube (length (o_qs o))))) (cube n))).
  - rewrite fsum_swap. apply fsum_map_ext. intros b _. rewrite (expand n psi (wr (o_qs o) b x)) by (rewrite length_wr; exact Hx). rewrite <- fsum_map_mul. apply fsum_map_ext. intros y _. toC. ring.
  - apply fsum_map_ext. intros y _. rewrite <- fsum_map_mul. apply fsum_map_ext. intros b _. toC. ring.
Qed.
Lemma run_expand n c : forall (psi : amp C) x, length x = n -> QSem.run c psi x = fsum (map (fun y => fmul (psi y) (QSem.run c (point y) x)) (cube n)).
Proof.
  induction c as [|o c IH]; intros psi x Hx; [exact (expand n psi x Hx)|]. cbn [QSem.run]. rewrite (IH (apply o psi) x Hx).
  transitivity (fsum (map (fun z => fsum (map (fun y => fmul (fmul (psi y) (apply o (point y) z)) (QSem.run c (point z) x)) (cube n))) (cube n))).
  - apply fsum_map_ext. intros z Hz. apply in_cube in Hz. rewrite (apply_expand n o psi z Hz). symmetry. apply fsum_map_mul_r.
  - rewrite fsum_swap. apply fsum_map_ext. intros y _. rewrite (IH (apply o (point y)) x Hx), <- fsum_map_mul. apply fsum_map_ext. intros z _. toC. ring.
Qed.
(** The matrix of a list of gates. *)
Definition mx (n : nat) (c : list (QSem.op C)) : op := fun i j => QSem.run c (point (bits_at n j)) (bits_at n i).
Lemma mx_app n c d : same (2 ^ n) (mx n (c ++ d)) (product (2 ^ n) (mx n d) (mx n c)).
Proof.
  intros i j _ _. unfold mx. rewrite run_app, (run_expand n d) by apply bits_length. unfold product. rewrite <- sum_bits. apply csumn_ext. intros a _. toC. ring.
Qed.
Lemma point_eq n i j : i < 2 ^ n -> j < 2 ^ n -> point (bits_at n j) (bits_at n i) = identity i j.
Proof.
  intros Hi Hj. unfold point, identity. destruct (Nat.eqb_spec i j) as [->|Hn]; [rewrite eqb_refl; reflexivity|]. destruct (eqb_spec (bits_at n i) (bits_at n j)) as [E|_]; [exfalso; exact (Hn (bits_inj n i j Hi Hj E))|reflexivity].
Qed.
Lemma mx_nil n : same (2 ^ n) (mx n []) identity. Proof. intros i j Hi Hj. apply point_eq; assumption. Qed.
Lemma mx_ext n c d : (forall psi x, length x = n -> QSem.run c psi x = QSem.run d psi x) -> same (2 ^ n) (mx n c) (mx n d).
Proof. intros H i j _ _. apply H, bits_length. Qed.

(** ** Unitary gates *)
Definition dag (o : QSem.op C) : QSem.op C := {| o_mat := fun a b => Cconj (o_mat o b a); o_qs := o_qs o |}.
Definition uni (o : QSem.op C) : Prop := let k := length (o_qs o) in forall b b', length b = k -> length b' = k ->
    fsum (map (fun a => fmul (Cconj (o_mat o a b)) (o_mat o a b')) (cube k)) = (if eqb b b' then f1 else f0) /\
    fsum (map (fun a => fmul (o_mat o b a) (Cconj (o_mat o b' a))) (cube k)) = (if eqb b b' then f1 else f0).
Lemma rewrite_twice n qs a b x : NoDup qs -> (forall q, In q qs -> q < n) -> length a = length qs -> length b = length qs -> length x = n -> wr qs a (wr qs b x) = wr qs a x.
Proof. intros Hd Hq Ha Hb Hx. apply (wr_wr_same n); try assumption. apply Forall_forall. exact Hq. Qed.
Lemma two_gates n (o o' : QSem.op C) (psi : amp C) x : ok_op n o -> o_qs o' = o_qs o -> length x = n ->
  apply o' (apply o psi) x = fsum (map (fun b' => fmul (fsum (map (fun b => fmul (o_mat o' (rd (o_qs o) x) b) (o_mat o b b')) (cube (length (o_qs o))))) (psi (wr (o_qs o) b' x))) (cube (length (o_qs o)))).
Proof.
  intros [Hd Hq] E Hx. unfold apply. rewrite E.
  transitivity (fsum (map (fun b => fsum (map (fun b' => fmul (fmul (o_mat o' (rd (o_qs o) x) b) (o_mat o b b')) (psi (wr (o_qs o) b' x))) (cube (length (o_qs o))))) (cube (length (o_qs o))))).
  - apply fsum_map_ext. intros b Hb. apply in_cube in Hb. rewrite <- fsum_map_mul. apply fsum_map_ext. intros b' Hb'. apply in_cube in Hb'.
    rewrite rd_wr, (rewrite_twice n) by (try assumption; intros q Hi; rewrite Hx; auto). toC. ring.
  - rewrite fsum_swap. apply fsum_map_ext. intros b' _. apply fsum_map_mul_r.
Qed.
Lemma sum_delta n qs (psi : amp C) x : NoDup qs -> (forall q, In q qs -> q < n) -> length x = n ->
  fsum (map (fun b' => fmul (if eqb (rd qs x) b' then f1 else f0 : C) (psi (wr qs b' x))) (cube (length qs))) = psi x.
Proof.
  intros Hd Hq Hx. rewrite (fsum_map_ext _ (fun b' => if eqb (rd qs x) b' then psi (wr qs b' x) else f0)) by (intros b' _; destruct (eqb (rd qs x) b'); toC; ring).
  rewrite (fsum_pick (cube (length qs)) (rd qs x) (fun b' => psi (wr qs b' x)) (cube_NoDup _)) by (apply in_cube, length_rd). rewrite wr_rd; [reflexivity|exact Hd|rewrite Hx; exact Hq].
Qed.
Lemma gate_undone n o psi x : ok_op n o -> uni o -> length x = n -> apply (dag o) (apply o psi) x = psi x.
Proof.
  intros Ho Hu Hx. rewrite (two_gates n o (dag o) psi x Ho eq_refl Hx). destruct Ho as [Hd Hq]. rewrite <- (sum_delta n (o_qs o) psi x Hd Hq Hx). apply fsum_map_ext. intros b' Hb'. apply in_cube in Hb'. f_equal.
  apply (Hu (rd (o_qs o) x) b' (length_rd _ _) Hb').
Qed.
Lemma gate_redone n o psi x : ok_op n o -> uni o -> length x = n -> apply o (apply (dag o) psi) x = psi x.
Proof.
  intros Ho Hu Hx. rewrite (two_gates n (dag o) o psi x Ho eq_refl Hx). destruct Ho as [Hd Hq]. cbn [dag o_qs]. rewrite <- (sum_delta n (o_qs o) psi x Hd Hq Hx). apply fsum_map_ext. intros b' Hb'. apply in_cube in Hb'. f_equal.
  apply (Hu (rd (o_qs o) x) b' (length_rd _ _) Hb').
Qed.
(** The entries of a gate's matrix. *)
Lemma gate_entry n o x y : ok_op n o -> length x = n -> length y = n ->
  apply o (point y) x = if eqb (wr (o_qs o) (rd (o_qs o) y) x) y then o_mat o (rd (o_qs o) x) (rd (o_qs o) y) else f0.
Proof.
  intros [Hd Hq] Hx Hy. unfold apply.
  rewrite (fsum_map_ext _ (fun b => if eqb (rd (o_qs o) y) b then (if eqb (wr (o_qs o) (rd (o_qs o) y) x) y then o_mat o (rd (o_qs o) x) b else f0) else f0)).
  - rewrite (fsum_pick (cube (length (o_qs o))) (rd (o_qs o) y) (fun b => if eqb (wr (o_qs o) (rd (o_qs o) y) x) y then o_mat o (rd (o_qs o) x) b else f0) (cube_NoDup _)) by (apply in_cube, length_rd). reflexivity.
  - intros b Hb. apply in_cube in Hb. unfold point. destruct (eqb_spec (rd (o_qs o) y) b) as [<-|Hn].
    + destruct (eqb (wr (o_qs o) (rd (o_qs o) y) x) y); toC; ring.
    + destruct (eqb_spec (wr (o_qs o) b x) y) as [E|_]; [|toC; ring]. exfalso. apply Hn. rewrite <- E. apply rd_wr; [exact Hd|exact Hb|rewrite Hx; exact Hq].
Qed.
Lemma agree_sym n qs x y : NoDup qs -> (forall q, In q qs -> q < n) -> length x = n -> length y = n -> eqb (wr qs (rd qs y) x) y = eqb (wr qs (rd qs x) y) x.
Proof.
  intros Hd Hq Hx Hy. assert (G : forall x y : bits, length x = n -> length y = n -> wr qs (rd qs y) x = y -> wr qs (rd qs x) y = x).
  { clear x y Hx Hy. intros x y Hx Hy E. rewrite <- E at 1. rewrite (rewrite_twice n) by (try assumption; apply length_rd). apply wr_rd; [exact Hd|rewrite Hx; exact Hq]. }
  destruct (eqb_spec (wr qs (rd qs y) x) y) as [E|E], (eqb_spec (wr qs (rd qs x) y) x) as [E'|E']; try reflexivity; exfalso; auto.
Qed.
Lemma conj_0 : Cconj (RtoC 0) = RtoC 0. Proof. apply injective_projections; cbn; lra. Qed.
Lemma conj_1 : Cconj (RtoC 1) = RtoC 1. Proof. apply injective_projections; cbn; lra. Qed.
Lemma mx_dag n o : ok_op n o -> same (2 ^ n) (mx n [dag o]) (dagger (mx n [o])).
Proof.
  intros Ho i j _ _. unfold mx, dagger. cbn [QSem.run]. rewrite (gate_entry n (dag o)), (gate_entry n o) by (try exact Ho; apply bits_length). cbn [dag o_qs o_mat]. destruct Ho as [Hd Hq].
  rewrite (agree_sym n (o_qs o) (bits_at n i) (bits_at n j) Hd Hq (bits_length _ _) (bits_length _ _)). destruct (eqb _ _); [reflexivity|]. symmetry. exact conj_0.
Qed.
Definition dags (c : list (QSem.op C)) : list (QSem.op C) := rev (map dag c).
Lemma run_undone n c : Forall (ok_op n) c -> Forall uni c -> forall psi x, length x = n -> QSem.run (c ++ dags c) psi x = psi x.
Proof.
  induction c as [|o c IH]; intros Ho Hu psi x Hx; [reflexivity|]. inversion Ho; subst. inversion Hu; subst. unfold dags. cbn [map rev]. rewrite app_assoc, run_app. cbn [QSem.run app].
  rewrite (apply_ext (length x) (dag o) _ (apply o psi)); [apply (gate_undone (length x)); auto| |reflexivity]. intros y Hy. apply IH; auto.
Qed.
Lemma run_redone n c : Forall (ok_op n) c -> Forall uni c -> forall psi x, length x = n -> QSem.run (dags c ++ c) psi x = psi x.
Proof.
  induction c as [|o c IH]; intros Ho Hu psi x Hx; [reflexivity|]. inversion Ho; subst. inversion Hu; subst. unfold dags. cbn [map rev]. rewrite <- app_assoc, run_app. cbn [QSem.run app].
  rewrite (run_ext (length x) c _ (QSem.run (dags c) psi)); [rewrite <- run_app; apply IH; auto| |reflexivity]. intros y Hy. apply (gate_redone (length x)); auto.
Qed.
Lemma mx_dags n c : Forall (ok_op n) c -> same (2 ^ n) (mx n (dags c)) (dagger (mx n c)).
Proof.
  induction c as [|o c IH]; intros Ho.
  - intros i j Hi Hj. unfold dagger. rewrite !(mx_nil n) by assumption. unfold identity. rewrite Nat.eqb_sym. destruct (j =? i); symmetry; [exact conj_1|exact conj_0].
  - inversion Ho; subst. unfold dags. cbn [map rev]. eapply same_trans; [apply mx_app|]. eapply same_trans; [apply product_ext; [apply mx_dag; assumption|apply IH; assumption]|].
    eapply same_trans; [apply same_sym, dagger_product|]. apply dagger_ext. apply same_sym. exact (mx_app n [o] c).
Qed.
Lemma mx_unitary n c : Forall (ok_op n) c -> Forall uni c -> unitary (2 ^ n) (mx n c).
Proof.
  intros Ho Hu. split.
  - eapply same_trans; [apply product_ext; [apply same_sym, mx_dags; exact Ho|apply same_refl]|]. eapply same_trans; [apply same_sym, mx_app|]. eapply same_trans; [|apply mx_nil]. apply mx_ext. intros psi x Hx. rewrite (run_undone n); auto.
  - eapply same_trans; [apply product_ext; [apply same_refl|apply same_sym, mx_dags; exact Ho]|]. eapply same_trans; [apply same_sym, mx_app|]. eapply same_trans; [|apply mx_nil]. apply mx_ext. intros psi x Hx. rewrite (run_redone n); auto.
Qed.

(** ** Sequences that do nothing *)
Lemma ideal_from n : forall cs noise c0 V, length noise = length cs -> same (2 ^ n) V (mx n c0) ->
  same (2 ^ n) (fold_left (fun V (up : op * R) => product (2 ^ n) (fst up) V) (combine (map (mx n) cs) noise) V) (mx n (c0 ++ concat cs)).
Proof.
  induction cs as [|c cs IH]; intros [|p noise] c0 V L H; try discriminate; cbn [map combine fold_left concat fst].
  - rewrite app_nil_r. exact H.
  - rewrite app_assoc. apply IH; [cbn in L; lia|]. eapply same_trans; [apply product_ext; [apply same_refl|exact H]|]. apply same_sym, mx_app.
Qed.
Lemma phase n c : equiv n c [] -> unitary (2 ^ n) (mx n c) -> is_phase (2 ^ n) (mx n c).
Proof.
  intros (k & _ & H) [U _]. assert (E : same (2 ^ n) (mx n c) (fun i j => fmul k (identity i j))).
  { intros i j Hi Hj. unfold mx. rewrite H by apply bits_length. cbn [QSem.run]. rewrite point_eq by assumption. reflexivity. }
  exists k. split; [|exact E]. assert (P : 0 < 2 ^ n) by (apply Nat.neq_0_lt_0, Nat.pow_nonzero; lia). specialize (U 0 0 P P). rewrite identity_diag in U. rewrite <- U. unfold product, dagger.
  rewrite (csumn_ext _ _ (fun a => if 0 =? a then fmul k (Cconj k) else f0)); [symmetry; exact (csumn_pick (2 ^ n) 0 (fun _ => fmul k (Cconj k)) P)|].
  intros a Ha. rewrite (E a 0 Ha P). cbn beta. unfold identity. rewrite (Nat.eqb_sym a 0). destruct (0 =? a).
  - toC. rewrite conj_mul, conj_1. ring.
  - toC. rewrite conj_mul, conj_0. ring.
Qed.
Lemma combine_fst {A B} (l : list A) (m : list B) x : In x (combine l m) -> In (fst x) l.
Proof. destruct x as [a b]. apply in_combine_l. Qed.
Lemma closed_parts n cs noise : length noise = length cs -> Forall (Forall (ok_op n)) cs -> Forall (Forall uni) cs -> equiv n (concat cs) [] ->
  closes (2 ^ n) (combine (map (mx n) cs) noise).
Proof.
  intros L Ho Hu He. assert (U : unitary (2 ^ n) (mx n (concat cs))) by (apply mx_unitary; apply Forall_concat; assumption). split.
  - intros up H. apply combine_fst, in_map_iff in H. destruct H as (c & <- & H). rewrite Forall_forall in Ho, Hu. apply mx_unitary; auto.
  - destruct (phase n (concat cs) He U) as (w & W & E). exists w. split; [exact W|]. eapply same_trans; [|exact E]. unfold ideal. apply (ideal_from n cs noise [] identity L). apply same_sym, mx_nil.
Qed.
Lemma combine_strengths {A} : forall (l : list A) (noise : list R), length noise = length l -> map snd (combine l noise) = noise.
Proof. induction l as [|a l IH]; intros [|r noise] L; try discriminate; cbn; [reflexivity|]. f_equal. apply IH. cbn in L. lia. Qed.

(** ** The parts of the returned circuits *)
Section Parts.
Variable gmat : pystr -> list Q -> bits -> bits -> C.
Variable grp : group_type -> group.
Variable t : group_type.
Variable pattern : list (list nat).
Variable inter : option (list (elem (grp t))).
Variable valid : nat -> elem (grp t) -> Prop.
Notation G := (grp t).
Hypothesis Hnd : NoDup (concat pattern).
Hypothesis Hlaw : forall pat, In pat pattern -> lawful gmat G (length pat) (valid (length pat)).
Hypothesis Hdraw : forall pat, In pat pattern -> draws_valid G (length pat) (valid (length pat)).
Hypothesis Hinter : forall ies p ie, inter = Some ies -> nth_error ies p = Some ie -> p < length pattern -> valid (length (qubits_of pattern p)) ie.
Hypothesis Huni : forall pat e g, In pat pattern -> valid (length pat) e -> In g (circ_of G e ++ inv_of G e) -> unitary_gate gmat g.
Variable it : option (list (elem (grp t))).
Hypothesis Hit : it = None \/ it = inter.

Lemma product_of p steps : p < length pattern -> good_steps grp t pattern steps ->
  Forall (valid (length (qubits_of pattern p))) (elements G it p steps) /\
  exists e, RBSeqSpec.product G pattern it p steps = Ok e /\ valid (length (qubits_of pattern p)) e /\
    same_action gmat (length (qubits_of pattern p)) (circ_of G e) (flat_map (circ_of G) (elements G it p steps)).
Proof using Hnd Hlaw Hdraw Hinter Hit.
  intros Hp Hg. assert (V : Forall (valid (length (qubits_of pattern p))) (elements G it p steps)).
  { rewrite <- (els_elements grp t it p steps). eapply els_valid; eauto. }
  split; [exact V|]. pose proof (Hlaw _ (pat_in pattern p Hp)) as L. destruct (l_iden _ _ _ _ L) as (e0 & E0 & V0 & I0). unfold RBSeqSpec.product. rewrite E0. cbn [bind].
  destruct (product_total gmat _ _ _ L _ _ V0 V) as (e & Ee). exists e. split; [exact Ee|]. destruct (product_action gmat _ _ _ L _ _ _ V0 V Ee) as [Ve Se]. split; [exact Ve|].
  apply (RBSeqActProofs.same_trans gmat _ _ _ _ Se). rewrite <- (app_nil_l (flat_map (circ_of G) (elements G it p steps))) at 2. apply same_app; [|apply RBSeqActProofs.same_refl]. apply I0. eapply circ_ok; eauto.
Qed.
Lemma parts_good p steps : p < length pattern -> good_steps grp t pattern steps -> let n := length (qubits_of pattern p) in
  Forall (fun c => RBSeqSpec.fits n c /\ Forall (unitary_gate gmat) c) (parts G pattern it p steps) /\ identity_on gmat n (concat (parts G pattern it p steps)).
Proof using Hnd Hlaw Hdraw Hinter Huni Hit.
  intros Hp Hg n. destruct (product_of p steps Hp Hg) as (V & e & E & Ve & Se). fold n in V, Ve, Se. unfold parts. rewrite E.
  pose proof (Hlaw _ (pat_in pattern p Hp)) as L. fold n in L. destruct (inv_ok gmat _ _ _ _ L Ve) as (_ & Fi & Ii). split.
  - apply Forall_app. split.
    + apply Forall_map. eapply Forall_impl; [|exact V]. intros a Va. cbn beta. split; [eapply circ_ok; eauto|]. apply Forall_forall. intros g Hin. apply (Huni _ a g (pat_in pattern p Hp) Va). apply in_app_iff. left. exact Hin.
    + constructor; [|constructor]. split; [exact Fi|]. apply Forall_forall. intros g Hin. apply (Huni _ e g (pat_in pattern p Hp) Ve). apply in_app_iff. right. exact Hin.
  - rewrite concat_app. cbn [concat]. rewrite app_nil_r, <- flat_map_concat_map. apply (RBSeqActProofs.same_trans gmat _ _ (circ_of G e ++ inv_of G e)); [|exact Ii]. apply same_app; [apply RBSeqActProofs.same_sym, Se|apply RBSeqActProofs.same_refl].
Qed.
Lemma parts_close p steps noise : p < length pattern -> good_steps grp t pattern steps -> length noise = length (parts G pattern it p steps) ->
  let n := length (qubits_of pattern p) in let ops := with_noise gmat n (parts G pattern it p steps) noise in
  closes (2 ^ n) ops /\ strengths ops = noise.
Proof using Hnd Hlaw Hdraw Hinter Huni Hit.
  intros Hp Hg L n ops. destruct (parts_good p steps Hp Hg) as [F I]. fold n in F, I. split.
  - unfold ops, with_noise. replace (map (circuit_matrix gmat n) (parts G pattern it p steps)) with (map (mx n) (map (map (op_of gmat)) (parts G pattern it p steps))) by (rewrite map_map; reflexivity).
    apply closed_parts.
    + rewrite map_length. exact L.
    + apply Forall_map. eapply Forall_impl; [|exact F]. intros c [A _]. apply fits_ok. exact A.
    + apply Forall_map. eapply Forall_impl; [|exact F]. intros c [_ B]. apply Forall_map. eapply Forall_impl; [|exact B]. intros g Hu. exact Hu.
    + unfold identity_on, same_action in I. rewrite concat_map in I. exact I.
  - unfold ops, strengths, with_noise. apply combine_strengths. rewrite map_length. exact L.
Qed.
(** The gates on a pattern are those of the parts. *)
Lemma parts_within p align steps : p < length pattern -> good_steps grp t pattern steps ->
  within (qubits_of pattern p) (gates (seq_body G pattern it align steps ++ recovery G pattern it steps)) = map (on (qubits_of pattern p)) (concat (parts G pattern it p steps)).
Proof using Hnd Hlaw Hdraw Hinter Hit.
  clear Huni. intros Hp Hg. rewrite gates_app, (gates_seq grp t pattern), within_app. unfold parts. rewrite concat_app, map_app. f_equal.
  - rewrite (within_seq gmat grp t pattern inter valid Hnd Hlaw Hdraw Hinter it p (concat steps) Hit Hg Hp), els_elements, flat_map_concat_map. reflexivity.
  - cbn [concat]. rewrite app_nil_r. set (f := fun p => match RBSeqSpec.product G pattern it p steps with Ok e => inv_of G e | Err _ => [] end).
    transitivity (within (qubits_of pattern p) (flat_map (fun p => map (on (qubits_of pattern p)) (f p)) (seq 0 (length pattern)))).
    + f_equal. unfold recovery, f. clear. generalize (seq 0 (length pattern)). induction l as [|q l IH]; cbn [flat_map]; [reflexivity|]. rewrite gates_app, IH. f_equal. destruct (RBSeqSpec.product G pattern it q steps); [apply gates_placed|reflexivity].
    + apply (within_flat pattern Hnd f p); [apply seq_NoDup|apply in_seq; lia|]. intros q Hq. apply in_seq in Hq. split; [lia|]. unfold f. destruct (product_of q steps ltac:(lia) Hg) as (_ & e & E & Ve & _). rewrite E.
      eapply inv_ok; [apply Hlaw, pat_in; lia|exact Ve].
Qed.
End Parts.

(** ** Runs *)
Lemma ascending_last lv last lv' k : ascending lv -> lv = lv' ++ [last] -> k < length lv -> nth k lv 0 <= last.
Proof.
  intros Ha -> Hk. rewrite app_length in Hk. cbn [length] in Hk. assert (EL : nth_error (lv' ++ [last]) (length lv') = Some last) by (rewrite nth_error_app2, Nat.sub_diag by lia; reflexivity).
  destruct (Nat.eq_dec k (length lv')) as [->|Hn]; [rewrite app_nth2, Nat.sub_diag by lia; cbn; lia|].
  assert (EK : nth_error (lv' ++ [last]) k = Some (nth k (lv' ++ [last]) 0)) by (apply nth_error_nth'; rewrite app_length; cbn; lia).
  pose proof (ascending_from_lt 0 _ k (length lv') _ _ Ha ltac:(lia) EK EL). lia.
Qed.
Lemma nth_error_map_inv {A B} (f : A -> B) l i y : nth_error (map f l) i = Some y -> exists x, nth_error l i = Some x /\ y = f x.
Proof. rewrite nth_error_map. destruct (nth_error l i) as [x|]; [|discriminate]. intros E. injection E as <-. eauto. Qed.
Section Run.
Context {gmat : pystr -> list Q -> bits -> bits -> C} {grp : group_type -> group} {a : seq_args grp} {out : seq_out} {t : group_type} {mult : list num}
  {inter : option (list (elem (grp t)))} {logs : list (list (list (event (grp t))))} {valid : nat -> elem (grp t) -> Prop}.
Hypothesis H : run_of gmat grp a out t mult inter logs valid.
Notation pats := (default_pattern (a_pat _ a)).
Notation lv := (default_lv (a_lv _ a)).
Notation G := (grp t).

Lemma run_nodup : NoDup (concat pats).
Proof. destruct (seq_inv grp a out (ro_run _ _ _ _ _ _ _ _ _ H)) as (m & d & ? & ? & ? & ? & Hcp & _). apply (check_pattern_inv _ _ _ _ Hcp). Qed.
Lemma run_inter ies p ie : inter = Some ies -> nth_error ies p = Some ie -> p < length pats -> valid (length (qubits_of pats p)) ie.
Proof.
  intros E Hi Hp. destruct (ro_contract _ _ _ _ _ _ _ _ _ H) as [_ _ I _]. apply (I ies p (qubits_of pats p) ie); [rewrite <- E; exact (ro_inter _ _ _ _ _ _ _ _ _ H)| |exact Hi]. apply nth_error_nth', Hp.
Qed.
Lemma run_inter_length ies : inter = Some ies -> length ies = length pats.
Proof.
  intros E. pose proof (ro_inter _ _ _ _ _ _ _ _ _ H) as Hi. rewrite E in Hi. destruct (seq_inv grp a out (ro_run _ _ _ _ _ _ _ _ _ H)) as (m & d & ? & ? & ? & ? & Hcp & _).
  apply check_pattern_inv in Hcp. destruct Hcp as (_ & _ & Hd & _). unfold handle_interleaved_elem in Hi. destruct (a_inter _ a) as [l|]; [|discriminate]. cbn [option_map] in Hd. specialize (Hd _ eq_refl).
  apply bind_inv in Hi. destruct Hi as (es & E1 & E2). injection E2 as <-. apply mapM_inv, Forall2_len in E1. apply (f_equal (@length nat)) in Hd. rewrite !map_length in Hd. lia.
Qed.
Lemma run_log log : In log logs -> exists lv', lv = lv' ++ [length log].
Proof. intros Hl. apply In_nth_error in Hl. destruct Hl as (s & Hs). exact (ex_steps _ _ _ _ _ _ _ (ro_logs _ _ _ _ _ _ _ _ _ H) s log Hs). Qed.
Lemma run_good k log : In log logs -> good_steps grp t pats (log_at a k log).
Proof. intros Hl. apply In_nth_error in Hl. destruct Hl as (s & Hs). exact (logs_good _ _ _ _ _ _ _ s log _ (ro_logs _ _ _ _ _ _ _ _ _ H) Hs). Qed.
Lemma run_logs : logs <> [].
Proof. intros E. pose proof (ex_seeds _ _ _ _ _ _ _ (ro_logs _ _ _ _ _ _ _ _ _ H)) as L. pose proof (ro_seeds _ _ _ _ _ _ _ _ _ H). rewrite E in L. cbn in L. lia. Qed.
Lemma run_count p ms k log : reported out p ms -> p < length pats -> k < length ms -> In log logs ->
  length (filter (fun ev => ev_p ev =? p) (concat (log_at a k log))) = nth k ms 0.
Proof.
  intros Hr Hp Hk Hl. unfold reported in Hr.
  assert (Hx : xdata_of out = calc_xdata lv mult).
  { destruct (run_explained grp a out (ro_run _ _ _ _ _ _ _ _ _ H)) as (t' & mult' & ? & ? & _ & Hm & _ & Hx & _). rewrite (ro_mult _ _ _ _ _ _ _ _ _ H) in Hm. injection Hm as <-. exact Hx. }
  rewrite Hx in Hr. unfold calc_xdata in Hr. apply nth_error_map_inv in Hr. destruct Hr as (m & Hm & Em).
  assert (Ll : length lv = length ms) by (apply (f_equal (@length num)) in Em; rewrite !map_length in Em; lia).
  assert (Ek : num_mul (Z.of_nat (nth k lv 0)) m = NInt (Z.of_nat (nth k ms 0))).
  { apply (f_equal (fun l => nth_error l k)) in Em. rewrite !nth_error_map in Em. rewrite (nth_error_nth' ms 0 Hk), (nth_error_nth' lv 0) in Em by lia. cbn [option_map] in Em. injection Em as Em. symmetry. exact Em. }
  destruct (run_log log Hl) as (lv' & Elv). pose proof (ascending_last _ _ _ k (ro_lengths _ _ _ _ _ _ _ _ _ H) Elv ltac:(lia)) as Hle.
  apply In_nth_error in Hl. destruct Hl as (s & Hs).
  pose proof (drawn_count (grp t) pats mult logs s log (nth k lv 0) p (ex_turns _ _ _ _ _ _ _ (ro_logs _ _ _ _ _ _ _ _ _ H)) Hs Hle Hp) as Ed. unfold drawn_for in Ed. unfold log_at. rewrite Ed, Hm.
  destruct m as [z|q]; cbn [num_mul] in Ek; [|discriminate]. injection Ek as Ek. destruct (Z.le_gt_cases 0 z) as [Hz|Hz].
  - apply Nat2Z.inj. rewrite <- Ek, Nat2Z.inj_mul, Z2Nat.id by exact Hz. reflexivity.
  - replace (Z.to_nat z) with 0 by lia. clear Ed. assert (Z.of_nat (nth k lv 0%nat) * z <= 0)%Z by (apply Z.mul_nonneg_nonpos; lia). lia.
Qed.
Lemma parts_standard p ms k log : reported out p ms -> p < length pats -> k < length ms -> In log logs -> length (parts G pats None p (log_at a k log)) = S (nth k ms 0).
Proof.
  intros Hr Hp Hk Hl. unfold parts. rewrite app_length, map_length. cbn [length]. rewrite <- (run_count p ms k log Hr Hp Hk Hl). unfold elements. generalize (filter (fun ev => ev_p ev =? p) (concat (log_at a k log))). intros l.
  rewrite Nat.add_1_r. f_equal. induction l as [|e l IH]; cbn; [reflexivity|]. f_equal. exact IH.
Qed.
Lemma parts_interleaved p ms k log : inter <> None -> reported out p ms -> p < length pats -> k < length ms -> In log logs -> length (parts G pats inter p (log_at a k log)) = S (2 * nth k ms 0).
Proof.
  intros Hn Hr Hp Hk Hl. assert (X : exists ies, inter = Some ies) by (clear - Hn; destruct inter as [ies|]; [eauto|congruence]). destruct X as (ies & Ei). pose proof (run_inter_length ies Ei) as Li. destruct (nth_error ies p) as [ie|] eqn:Ee; [|apply nth_error_None in Ee; lia].
  unfold parts. rewrite app_length, map_length. cbn [length]. rewrite <- (run_count p ms k log Hr Hp Hk Hl). unfold elements. rewrite Ei, Ee. generalize (filter (fun ev => ev_p ev =? p) (concat (log_at a k log))). intros l.
  rewrite Nat.add_1_r. f_equal. induction l as [|e l IH]; [reflexivity|]. cbn [flat_map]. rewrite app_length, IH. cbn [length]. lia.
Qed.
Lemma run_closes it p noise k log : it = None \/ it = inter -> p < length pats -> In log logs -> length (noise k) = length (parts G pats it p (log_at a k log)) ->
  closes (2 ^ length (qubits_of pats p)) (operations gmat a t it p noise k log) /\ strengths (operations gmat a t it p noise k log) = noise k.
Proof.
  intros Hit Hp Hl Hn. destruct (ro_contract _ _ _ _ _ _ _ _ _ H) as [L D _ _]. unfold operations.
  exact (parts_close gmat grp t pats inter valid run_nodup L D run_inter (ro_unitary _ _ _ _ _ _ _ _ _ H) it Hit p (log_at a k log) (noise k) Hp (run_good k log Hl) Hn).
Qed.
Lemma run_benchmarked f it p ms measured noise : it = None \/ it = inter -> p < length pats ->
  (forall k log, k < length ms -> In log logs -> length (noise (nth k ms 0)) = length (parts G pats it p (log_at a k log))) ->
  averaged f p ms logs (fun k log => measured (operations gmat a t it p (fun k => noise (nth k ms 0)) k log)) -> benchmarked f p ms (2 ^ length (qubits_of pats p)) measured noise.
Proof.
  intros Hit Hp Hn (rows & ys & A1 & A2 & A3 & A4 & A5 & A6). exists rows, ys. split; [exact A1|]. split; [exact A2|]. split; [exact A3|]. split; [exact A4|]. split; [exact A5|]. intros k Hk.
  exists (map (operations gmat a t it p (fun k => noise (nth k ms 0)) k) logs). split; [intros E; apply map_eq_nil in E; exact (run_logs E)|]. split.
  - intros ops Ho. apply in_map_iff in Ho. destruct Ho as (log & <- & Hl). exact (run_closes it p (fun k => noise (nth k ms 0)) k log Hit Hp Hl (Hn k log Hk Hl)).
  - rewrite map_length, map_map. exact (A6 k Hk).
Qed.
End Run.

(** ** Estimates *)
Lemma standard_length m p : length (standard m p) = S m. Proof. apply repeat_length. Qed.
Lemma interleaving_length m p pg : length (interleaving m p pg) = S (2 * m).
Proof. unfold interleaving. rewrite app_length. cbn [length]. rewrite Nat.add_1_r. f_equal. induction m as [|m IH]; [reflexivity|]. cbn [repeat concat]. rewrite app_length, IH. cbn [length]. lia. Qed.
Lemma within_measures pat qs : within pat (gates (map (fun i => CMeasure (nth i qs 0) i) (seq 0 (length qs)))) = [].
Proof. replace (gates (map (fun i => CMeasure (nth i qs 0) i) (seq 0 (length qs)))) with (@nil ginstr); [reflexivity|]. symmetry. unfold gates. induction (seq 0 (length qs)) as [|x l IH]; [reflexivity|]. exact IH. Qed.
