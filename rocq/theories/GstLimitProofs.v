(** The default gate set meets the conditions of the theorems; what the optimisation cannot do. *)
From Coq Require Import QArith Reals Lra.
From Coquelicot Require Import Coquelicot.
From Verif Require Import LinAlg Base ResultFacts PyStr CtmpSpec EntSpec LinInv TomoModel TomoFitModel TomoFitSpec TomoFitProofs TomoPsdSpec TomoPsdProofs GstModel GstInvSpec GstInvProofs GstOptModel GstOptSpec GstPauliProofs GstEncProofs GstConsProofs GstFitProofs GstGaugeProofs GstCaseProofs.
Local Open Scope string_scope.
Local Open Scope list_scope.
Local Open Scope nat_scope.
Local Notation s := (sqrt (1 / 2)).

Lemma d_schur_gates : Forall (fun g => schur_on d_schur 4 (choi_matrix 1 (m_at (cptm4 (d_G g))))) d_gates.
Proof.
  assert (U : forall M P, same_entries 4 (choi_matrix 1 M) P -> forall m, same_entries 4 (m_at m) (choi_matrix 1 M) -> same_entries 4 (m_at m) P) by (intros M P H m Hm; apply (same_trans _ _ _ _ Hm H)).
  repeat apply Forall_cons; [| | |constructor].
  - change (d_G (str "Id")) with m_id. intros m H1 H2 H. pose proof (U _ _ choi_id m H) as H'. unfold d_schur. rewrite H1. cbn [Nat.eqb]. pose proof (H' 1 1 ltac:(lia) ltac:(lia)) as E. rewrite E. destruct (Req_EM_T (fst (outer ph_id 1 1 1)) 0) as [_|N]; [|exfalso; apply N; cnum; lra].
    apply (schur_ext 4 _ _ _ _ _ _ H' (fun i j _ _ => eq_refl) (fun i j _ _ => eq_refl) form_id).
  - change (d_G (str "X_Rot_90")) with m_rx. intros m H1 H2 H. pose proof (U _ _ choi_rx m H) as H'. unfold d_schur. rewrite H1. cbn [Nat.eqb]. pose proof (H' 1 1 ltac:(lia) ltac:(lia)) as E. rewrite E. destruct (Req_EM_T (fst (outer ph_rx (1/2) 1 1)) 0) as [N|_]; [exfalso; revert N; cnum; lra|].
    apply (schur_ext 4 _ _ _ _ _ _ H' (fun i j _ _ => eq_refl)) with (2 := form_rx). intros i j Hi Hj. cbn [snd]. rewrite H' by lia. reflexivity.
  - change (d_G (str "Y_Rot_90")) with m_ry. intros m H1 H2 H. pose proof (U _ _ choi_ry m H) as H'. unfold d_schur. rewrite H1. cbn [Nat.eqb]. pose proof (H' 1 1 ltac:(lia) ltac:(lia)) as E. rewrite E. destruct (Req_EM_T (fst (outer ph_ry (1/2) 1 1)) 0) as [N|_]; [exfalso; revert N; cnum; lra|].
    apply (schur_ext 4 _ _ _ _ _ _ H' (fun i j _ _ => eq_refl)) with (2 := form_ry). intros i j Hi Hj. cbn [snd]. rewrite H' by lia. reflexivity.
Qed.
Lemma psd_vec : psd 2 (square 2 (cvec4 default_vec)).
Proof.
  apply (gram_psd 2 _ s [0; 1] (fun k a => if k =? a then f1 else f0)); [apply sqrt_pos|]. intros a b Ha Hb. destruct a as [|[|a]], b as [|[|b]]; try lia; apply injective_projections; cnum; lra.
Qed.
Lemma gate_ok m : (forall j, j < 4 -> m 0 j = if j =? 0 then 1%R else 0%R) -> (forall i j, i < 4 -> j < 4 -> (-1 <= m i j <= 1)%R) -> ptm_gate 1 (m_at (cptm4 m)).
Proof.
  intros H1 H2. split; [|split].
  - apply trace_row. intros j Hj. cbn [cptm4 m_at]. rewrite H1 by exact Hj. destruct (j =? 0); reflexivity.
  - intros i j _ _. reflexivity.
  - intros i j _ Hi Hj. apply H2; assumption.
Qed.
Lemma d_admissible : admissible d_gates default_vec default_vec d_G.
Proof.
  constructor.
  - constructor; [reflexivity|reflexivity|exact psd_vec|exact psd_vec|]. unfold d_gates. cbn [map]. repeat apply Forall_cons; [| | |constructor]; (split; [reflexivity|split; [reflexivity|]]); unfold completely_positive.
    + apply (psd_ext _ _ _ choi_id). apply psd_outer. lra.
    + apply (psd_ext _ _ _ choi_rx). apply psd_outer. lra.
    + apply (psd_ext _ _ _ choi_ry). apply psd_outer. lra.
  - repeat apply Forall_cons; [| | |constructor]; (apply gate_ok; [intros j Hj; do 4 (destruct j as [|j]; [rnum; lra|]); lia|intros i j Hi Hj; do 4 (destruct i as [|i]; [do 4 (destruct j as [|j]; [rnum; lra|]); lia|]); lia]).
  - unfold operator_of, csumn. rewrite <- s2. cbn [seq map]. rewrite !fsum_cons, !fsum_nil. rewrite !pauli1 by lia. apply injective_projections; cnum; pose proof ss as SS; unfold Rdiv in SS; lra.
Qed.
Definition d_np_inv : nat -> rmat -> option rmat := fun _ _ => Some d_inv.

Lemma ok_inj {A} (a b : A) : Ok a = Ok b -> a = b. Proof. congruence. Qed.
(** All the conditions of the theorem on the fit, for the default gate set. *)
Lemma d_fit_conditions : exists (gauge_minimize : (rmat -> result R) -> rmat -> rmat) (mle_minimize : mle_problem -> list R -> list R),
  length d_spam = 4 /\ NoDup d_gates /\ spam_of d_gates d_spam d_spec d_ops /\ (forall f, In f d_spam -> d_ops f <> []) /\ (forall g, In g d_gates -> exists m, dget d_mats g = Some m) /\
  admissible d_gates default_vec default_vec d_G /\ exact_gst 4 d_spam d_gates default_vec default_vec d_G d_S d_probs /\ in_order d_spam d_ops d_G d_S /\
  (forall M, (forall i j, i < 4 -> j < 4 -> M i j = gram_matrix 4 d_spam default_vec default_vec d_S i j) -> exists X, d_np_inv 4 M = Some X /\ inverse_of 4 X M) /\
  (forall Fs, mapM (spam_matrix 4 d_mats d_spec) d_spam = Ok Fs -> d_np_inv 4 (gauge_start 4 Fs default_vec) <> None) /\
  (forall f x0, (exists v, f x0 = Ok v) -> exists v, f (gauge_minimize f x0) = Ok v) /\
  schur_on d_schur 2 (square 2 (cvec4 default_vec)) /\ Forall (fun g => schur_on d_schur 4 (choi_matrix 1 (m_at (cptm4 (d_G g))))) d_gates /\
  forall terms x0, obj_terms d_gates d_spam d_spec d_probs = Ok terms -> let p := mle_problem_of 1 (length d_gates) terms in solution (mp_obj p) (mp_eq p) (mp_ineq p) (mle_minimize p x0).
Proof.
  assert (ND : NoDup d_gates) by (repeat constructor; vm_compute; intuition discriminate).
  destruct (terms_lemma d_gates d_spam d_spec d_ops d_probs (truth d_ops default_vec default_vec d_G) d_spam_of (data_truth d_gates d_spam d_ops d_probs default_vec default_vec d_G d_S d_exact d_order)) as (tv & Et & Ht).
  destruct (truth_solves d_schur d_np_inv (fun _ x => x) (fun _ x => x) d_gates d_spam d_spec d_ops default_vec default_vec d_G d_S ND d_spam_of d_admissible schur_vec schur_vec d_schur_gates tv Ht) as (y & Fy & Vy).
  exists (fun _ x => x), (fun _ _ => y). split; [reflexivity|]. split; [exact ND|]. split; [exact d_spam_of|]. split.
  { intros f Hf. cbn in Hf. destruct Hf as [<-|[<-|[<-|[<-|[]]]]]; vm_compute; discriminate. }
  split; [|split; [exact d_admissible|split; [exact d_exact|split; [exact d_order|split; [|split; [discriminate|split; [auto|split; [exact schur_vec|split; [exact d_schur_gates|]]]]]]]]].
  - intros g Hg. cbn in Hg. destruct Hg as [<-|[<-|[<-|[]]]]; eexists; reflexivity.
  - intros M H. exists d_inv. split; [reflexivity|]. apply d_inverse, H.
  - intros terms x0 E. rewrite Et in E. apply ok_inj in E. subst terms. cbv zeta. split; [exact Fy|]. exists 0%R. split; [exact Vy|]. intros y' w _ Hw.
    cbn [mle_problem_of mp_obj] in Hw. pose proof Hw as Hw'. unfold mle_obj in Hw'. destruct (split_input_vector 1 (length d_gates) y') as [[[E rho] Gs]|] eqn:S; [|discriminate]. clear Hw'. destruct (gate_names d_gates ND Gs) as (G & HG).
    pose proof (vector_value d_gates d_spam d_ops default_vec default_vec d_G tv Ht y' E rho Gs S G HG) as V. rewrite V in Hw. apply ok_inj in Hw. subst w. apply fsum_nonneg. apply Forall_forall. intros v Hv. apply in_flat_map in Hv. destruct Hv as (a & _ & Hv). apply in_flat_map in Hv. destruct Hv as (b & _ & Hv). apply in_map_iff in Hv. destruct Hv as (c & <- & _). cbv zeta. apply Rle_0_sqr.
Qed.

(** ** The gauge *)
Definition d_Kinv : rmat := of_rows [[s; s; s; s]; [0; 0; -2 * s; 0]; [0; -2 * s; 0; 0]; [s; s; s; -s]]%R.
Lemma d_Kinv_ok : inverse_of 4 d_Kinv (fun i j => after 4 [d_S (nth j d_spam [])] default_vec i).
Proof.
  intros i j Hi Hj. rewrite (mmul_at 4 d_Kinv d_Kinv _ d_K), (mmul_at 4 _ d_K d_Kinv d_Kinv) by (auto; intros; apply K_ok; assumption).
  do 4 (destruct i as [|i]; [do 4 (destruct j as [|j]; [split; rnum; pose proof ss as SS; unfold Rdiv in SS; lra|]); lia|]). lia.
Qed.
Definition g_np_inv : nat -> rmat -> option rmat := fun _ M => if Req_EM_T (M 0 0) 1 then Some d_inv else Some d_K.
Lemma g_gram M : (forall i j, i < 4 -> j < 4 -> M i j = gram_matrix 4 d_spam default_vec default_vec d_S i j) -> exists X, g_np_inv 4 M = Some X /\ inverse_of 4 X M.
Proof.
  intros H. exists d_inv. split; [|apply d_inverse, H]. unfold g_np_inv. destruct (Req_EM_T (M 0 0) 1) as [_|N]; [reflexivity|]. exfalso. apply N. rewrite H, gram_ok by lia. reflexivity.
Qed.
Lemma g_back X : inverse_of 4 X (fun i j => after 4 [d_S (nth j d_spam [])] default_vec i) -> exists Y, g_np_inv 4 X = Some Y /\ inverse_of 4 Y X.
Proof.
  intros H. exists d_K. split.
  - unfold g_np_inv. destruct (Req_EM_T (X 0 0) 1) as [E|_]; [|reflexivity]. exfalso.
    assert (HX : X 0 0 = d_Kinv 0 0). { apply (inverse_twice 4 d_Kinv (fun i j => after 4 [d_S (nth j d_spam [])] default_vec i) X); [|exact H|lia|lia]. intros i j Hi Hj. destruct (d_Kinv_ok i j Hi Hj). split; assumption. }
    rewrite HX in E. change (s = 1%R) in E. pose proof ss as SS. rewrite E in SS. lra.
  - intros i j Hi Hj. rewrite (mmul_at 4 d_K (fun i j => after 4 [d_S (nth j d_spam [])] default_vec i) X X), (mmul_at 4 X X d_K (fun i j => after 4 [d_S (nth j d_spam [])] default_vec i)) by (auto; intros; symmetry; apply K_ok; assumption). destruct (H i j Hi Hj). split; assumption.
Qed.
Lemma d_mats_ok g : In g d_gates -> dget d_mats g = Some (d_G g).
Proof. intros H. cbn in H. destruct H as [<-|[<-|[<-|[]]]]; reflexivity. Qed.
Lemma d_nodup : NoDup d_gates.
Proof. repeat constructor; vm_compute; intuition discriminate. Qed.
Lemma d_nonempty f : In f d_spam -> d_ops f <> [].
Proof. intros Hf. cbn in Hf. destruct Hf as [<-|[<-|[<-|[<-|[]]]]]; vm_compute; discriminate. Qed.
(** All the conditions of the theorem on the gauge, for the default gate set. *)
Lemma d_gauge_conditions : exists gauge_minimize : (rmat -> result R) -> rmat -> rmat,
  (forall M, (forall i j, i < 4 -> j < 4 -> M i j = gram_matrix 4 d_spam default_vec default_vec d_S i j) -> exists X, g_np_inv 4 M = Some X /\ inverse_of 4 X M) /\
  (forall X, inverse_of 4 X (fun i j => after 4 [d_S (nth j d_spam [])] default_vec i) -> exists Y, g_np_inv 4 X = Some Y /\ inverse_of 4 Y X) /\
  (forall Fs, mapM (spam_matrix 4 d_mats d_spec) d_spam = Ok Fs -> g_np_inv 4 (gauge_start 4 Fs default_vec) <> None) /\
  forall li ideal x0, linear_inversion g_np_inv d_spam d_gates d_probs = Ok li -> ideal_gateset d_gates d_mats 4 = Ok ideal -> minimiser (gauge_obj g_np_inv 4 d_gates ideal li) (gauge_minimize (gauge_obj g_np_inv 4 d_gates ideal li) x0).
Proof.
  exists (fun _ _ => d_Kinv). split; [exact g_gram|]. split; [exact g_back|]. split; [intros Fs _; unfold g_np_inv; destruct (Req_EM_T _ _); discriminate|]. intros li ideal x0 H1 H2.
  destruct (zero_gauge g_np_inv d_gates d_spam d_mats d_probs d_G d_S eq_refl d_nodup d_mats_ok d_exact g_gram g_back) as (li' & ideal' & E1 & E2 & _ & _ & _ & _ & _ & Z).
  rewrite E1 in H1. rewrite E2 in H2. injection H1 as <-. injection H2 as <-. exists 0%R. split; [apply Z; exact d_Kinv_ok|]. intros y w H. apply (gauge_obj_nonneg _ _ _ _ _ _ _ H).
Qed.
Lemma start_ok : exists Fs, mapM (spam_matrix 4 d_mats d_spec) d_spam = Ok Fs /\ forall i j, i < 4 -> j < 4 -> gauge_start 4 Fs default_vec i j = d_K i j.
Proof.
  exists [m_id; m_rx; m_ry; mmul (seq 0 4) m_rx m_rx]. split; [reflexivity|]. intros i j Hi Hj.
  do 4 (destruct i as [|i]; [do 4 (destruct j as [|j]; [rnum; lra|]); lia|]). lia.
Qed.
(** With exact data of the default gate set the starting point is not optimal,
    although it is the matrix of the prepared states. *)
Lemma start_lemma np_inv :
  (forall M, (forall i j, i < 4 -> j < 4 -> M i j = gram_matrix 4 d_spam default_vec default_vec d_S i j) -> exists X, np_inv 4 M = Some X /\ inverse_of 4 X M) ->
  (forall M, (forall i j, i < 4 -> j < 4 -> M i j = d_K i j) -> np_inv 4 M <> None) ->
  exists li ideal Fs v, linear_inversion np_inv d_spam d_gates d_probs = Ok li /\ ideal_gateset d_gates d_mats 4 = Ok ideal /\ mapM (spam_matrix 4 d_mats d_spec) d_spam = Ok Fs /\
    (forall i j, i < 4 -> j < 4 -> gauge_start 4 Fs default_vec i j = after 4 [d_S (nth j d_spam [])] default_vec i) /\
    gauge_obj np_inv 4 d_gates ideal li (gauge_start 4 Fs default_vec) = Ok v /\ (0 < v)%R.
Proof.
  intros Hg Hs. destruct (inversion_explicit np_inv d_spam d_gates default_vec default_vec d_G d_S d_probs d_exact Hg) as (li & X & Eli & _ & HG & HE & _). change (length d_spam) with 4 in HG, HE.
  destruct (ideal_ok d_gates d_mats d_nodup) as (ideal & Eid & Ir & IE & IG). { intros g Hgg. exists (d_G g). apply d_mats_ok, Hgg. }
  destruct start_ok as (Fs & EF & HF). exists li, ideal, Fs. unfold gauge_obj, x_to_gateset.
  destruct (np_inv 4 (gauge_start 4 Fs default_vec)) as [Y|] eqn:EY; [|destruct (Hs _ HF EY)]. cbn [ge_gates ge_E ge_rho].
  set (B := gauge_start 4 Fs default_vec) in *.
  match goal with |- exists v, _ /\ _ /\ _ /\ _ /\ bind ?m _ = _ /\ _ => destruct (mapM_total (fun label => do a <- dget_e (map (fun gm => (fst gm, mmul (seq 0 4) (mmul (seq 0 4) Y (snd gm)) B)) (ge_gates li)) label; do b <- dget_e (ge_gates ideal) label; Ok (norm_mat 4 a b)) (fun _ v => (0 <= v)%R) d_gates) as (l & El & Hl) end.
  { intros g Hgg. destruct (HG g Hgg) as (m & A & _). destruct (IG g Hgg) as (m' & A' & _). unfold dget_e. rewrite (dget_conj Y B _ _ _ A), A'. cbn [bind]. eexists. split; [reflexivity|]. apply norm_mat_nonneg. }
  rewrite El. cbn [bind]. eexists. split; [exact Eli|]. split; [exact Eid|]. split; [exact EF|]. split; [intros i j Hi Hj; rewrite K_ok by assumption; apply HF; assumption|]. split; [reflexivity|].
  assert (Pl : (0 <= rsum l)%R). { apply fsum_nonneg. apply Forall_forall. intros v Hv. destruct (Forall2_in_r _ _ _ v Hl Hv) as (_ & _ & P). exact P. }
  match goal with |- (0 < rsum l + norm_vec 4 ?e _ + ?n)%R => set (e' := e); pose proof (norm_vec_nonneg 4 e' (ge_E ideal)) as P1; assert (P2 : (0 <= n)%R) by apply norm_vec_nonneg; assert (P3 : norm_vec 4 e' (ge_E ideal) <> 0%R) end; [|lra].
  intros Z. apply norm_vec_zero with (i := 1) in Z; [|lia]. rewrite IE in Z. unfold e' in Z. revert Z.
  match goal with |- ?a = _ -> _ => assert (Ea : a = (s / 2)%R) end.
  { transitivity (fsum (map (fun i => fmul (fsum (map (fun k => fmul (default_vec k) (d_K k i)) (seq 0 4))) (d_K i 1)) (seq 0 4))).
    - apply fsum_map_ext. intros i Hi. apply in_seq in Hi. rewrite HE by lia. rewrite HF by lia. f_equal. apply fsum_map_ext. intros k Hk. apply in_seq in Hk. f_equal. apply K_ok; lia.
    - rnum. transitivity ((s * s) * s)%R; [ring|]. rewrite ss. lra. }
  rewrite Ea. cbn [default_vec]. pose proof s_pos. lra.
Qed.
