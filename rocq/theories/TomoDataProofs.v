(** The linear system of a tomography fitter (C46). *)
From Coq Require Import QArith Reals Lra.
From Coquelicot Require Import Coquelicot.
From Verif Require Import LinAlg Base ResultFacts CountsModel CountsProofs QSem DihedralModel RBSeqModel RBSeqSpec CtmpSpec StdGates AccSpec AccProbProofs EntSpec.
From Verif Require Import TomoModel TomoSpec TomoFitModel TomoFitSpec TomoCircProofs TomoLayerProofs TomoTensorProofs TomoBornProofs.
Local Open Scope list_scope.
Local Open Scope nat_scope.

Lemma Forall2_map_l' {A A' B} (P : A' -> B -> Prop) (f : A -> A') l m : Forall2 P (map f l) m <-> Forall2 (fun a b => P (f a) b) l m.
Proof. revert m. induction l as [|a l IH]; intros [|b m]; cbn [map]; split; intros H; try (inversion H; fail); try constructor; inversion H; subst; auto; now apply IH. Qed.
Lemma Forall2_map_r' {A B B'} (P : A -> B' -> Prop) (f : B -> B') l m : Forall2 P l (map f m) <-> Forall2 (fun a b => P a (f b)) l m.
Proof. revert l. induction m as [|b m IH]; intros [|a l]; cbn [map]; split; intros H; try (inversion H; fail); try constructor; inversion H; subst; auto; now apply IH. Qed.
Lemma Forall2_imp {A B} (P Q : A -> B -> Prop) l m : (forall a b, In a l -> P a b -> Q a b) -> Forall2 P l m -> Forall2 Q l m.
Proof. intros H H2. induction H2; constructor; [apply H; [now left|assumption]|]. apply IHForall2. intros. apply H; [now right|assumption]. Qed.
Lemma Forall2_via {A B D} (l : list A) (P : A -> B -> Prop) (Q : A -> D -> Prop) (R : B -> D -> Prop) bs ds :
  (forall a b d, In a l -> P a b -> Q a d -> R b d) -> Forall2 P l bs -> Forall2 Q l ds -> Forall2 R bs ds.
Proof.
  intros H HP. revert ds. induction HP as [|a b l bs Hab HP IH]; intros ds HQ; inversion HQ; subst; constructor.
  - eapply H; [now left|eassumption..].
  - apply IH; [|assumption]. intros. eapply H; [right|..]; eassumption.
Qed.
Lemma Forall2_flat {A B D} (f : A -> list B) (g : A -> list D) (R : B -> D -> Prop) l : Forall (fun a => Forall2 R (f a) (g a)) l -> Forall2 R (flat_map f l) (flat_map g l).
Proof. induction 1; cbn; [constructor|]. apply Forall2_app; assumption. Qed.

(** The weights are positive. *)
Lemma zsum_le (cs : list Z) c : Forall (fun c => (0 <= c)%Z) cs -> In c cs -> (c <= fold_right Z.add 0 cs)%Z.
Proof.
  induction 1 as [|a cs Ha Hcs IH]; intros Hin; [destruct Hin|]. cbn.
  assert (0 <= fold_right Z.add 0 cs)%Z by (clear -Hcs; induction Hcs; cbn; lia). destruct Hin as [->|Hin]; [lia|]. specialize (IH Hin). lia.
Qed.
Lemma weights_positive cs beta : Forall (fun c => (0 <= c)%Z) cs -> (0 < fold_right Z.add 0 cs)%Z -> 2 <= length cs -> (0 <= beta)%R ->
  exists w, binomial_weights cs beta = Ok w /\ length w = length cs /\ Forall (fun x => (0 < x)%R) w.
Proof.
  intros Hc Hs Hk Hb. unfold binomial_weights. destruct (Rlt_dec beta 0); [lra|]. eexists. split; [reflexivity|]. split; [apply map_length|].
  set (shots := fold_right Z.add 0%Z cs) in *. apply Forall_forall. intros x Hx. apply in_map_iff in Hx. destruct Hx as (c & <- & Hin).
  set (be := if Req_EM_T beta 0 then _ else _).
  assert (Hbe : (0 < be)%R \/ (be = 0%R /\ (0 < c < shots)%Z)).
  { unfold be. destruct (Req_EM_T beta 0); [|left; lra]. destruct (mem shots cs || mem 0%Z cs) eqn:E; [left; lra|right]. split; [assumption|].
    apply Bool.orb_false_iff in E. destruct E as [E1 E2]. apply mem_not_In in E1, E2. rewrite Forall_forall in Hc. pose proof (Hc c Hin). pose proof (zsum_le cs c (proj2 (Forall_forall _ _) Hc) Hin) as Hle. fold shots in Hle.
    assert (c <> shots) by (intros ->; auto). assert (c <> 0%Z) by (intros ->; auto). lia. }
  assert (Hc0 : (0 <= IZR c)%R) by (apply IZR_le; rewrite Forall_forall in Hc; auto).
  assert (Hcs : (IZR c <= IZR shots)%R) by (apply IZR_le; apply zsum_le; auto).
  assert (Hsh : (0 < IZR shots)%R) by (apply IZR_lt; assumption).
  assert (Hkk : (2 <= INR (length cs))%R) by (change 2%R with (INR 2); apply le_INR; assumption).
  set (k := INR (length cs)) in *.
  assert (Hnum : (0 < IZR c + be)%R) by (destruct Hbe as [|[-> [A _]]]; [lra|apply IZR_lt in A; lra]).
  assert (Hdiff : (0 < (IZR shots + k * be) - (IZR c + be))%R).
  { destruct Hbe as [|[-> [_ A]]]; [|apply IZR_lt in A; lra]. assert (be < k * be)%R by nra. lra. }
  assert (Hden : (0 < IZR shots + k * be)%R) by lra.
  apply sqrt_lt_R0. apply Rdiv_lt_0_compat; [assumption|]. apply Rmult_lt_0_compat; [apply Rdiv_lt_0_compat; assumption|].
  replace (1 - (IZR c + be) / (IZR shots + k * be))%R with (((IZR shots + k * be) - (IZR c + be)) / (IZR shots + k * be))%R by (field; lra).
  apply Rdiv_lt_0_compat; assumption.
Qed.

Lemma shots_sum n cts : 1 <= n -> fold_right Z.add 0%Z (map (fun k => count_of cts k) (count_keys n)) = shots_of n cts.
Proof.
  intros Hn. rewrite keys_outcomes by assumption. rewrite map_map. unfold shots_of.
  assert (P : Permutation.Permutation (map (fun k => lebits n k) (seq 0 (2 ^ n))) (cube n)).
  { apply NoDup_Permutation; [|apply cube_NoDup|].
    - apply NoDup_map_inj_in; [|apply seq_NoDup]. intros j k Hj Hk. apply in_seq in Hj, Hk. apply lebits_inj; lia.
    - intros z. split; [intros Hz; apply in_map_iff in Hz; destruct Hz as (k & <- & _); apply in_cube, length_lebits|].
      intros Hz. apply in_cube in Hz. clear Hn. revert z Hz. induction n as [|n IH]; intros z Hz; [destruct z; [now left|discriminate]|].
      destruct z as [|b z]; [discriminate|]. destruct (proj1 (in_map_iff _ _ _) (IH z ltac:(cbn in Hz; lia))) as (k & E & Hk). apply in_seq in Hk. apply in_map_iff. exists (Nat.b2n b + 2 * k).
      split; [|apply in_seq; rewrite Nat.pow_succ_r'; destruct b; cbn [Nat.b2n]; lia]. cbn [lebits]. f_equal.
      + rewrite Nat.odd_add, Nat.odd_mul. destruct b; reflexivity.
      + rewrite <- E. f_equal. rewrite (Nat.mul_comm 2), Nat.div_add by lia. destruct b; reflexivity. }
  rewrite <- (map_map (lebits n) (fun z => count_of cts (key_of z))).
  assert (Z' : forall l l', Permutation.Permutation l l' -> fold_right Z.add 0%Z l = fold_right Z.add 0%Z l') by (clear; induction 1; cbn [fold_right]; lia).
  apply Z'. apply Permutation.Permutation_map. exact P.
Qed.

Lemma is_qpt_state m : is_qpt (VTup (map VStr m)) = false.
Proof. destruct m as [|a [|b [|c m]]]; reflexivity. Qed.

(** One block of the linear system. *)
Definition block_rows (n : nat) (P : cmat) (d : meas_data) (m : list pystr) (rows : list (list C)) : Prop :=
  Forall2 (fun o r => exists op, is_tensor op (map (fun lo => at2 (md_matrix d (fst lo) (snd lo))) (combine m (lebits n o))) /\ r = vec_conj (kron (transp P) op)) (seq 0 (2 ^ n)) rows.
Definition block_weights (n : nat) (weighted : bool) (w : list R) : Prop :=
  if weighted then length w = 2 ^ n /\ Forall (fun x => (0 < x)%R) w else w = [].
Lemma block_ok (f : fitter) (weighted : bool) (beta : R) (qpt : bool) (n : nat) (label : pyval) (cts : counts) (P : cmat) b d (m : list pystr) :
  1 <= n -> (0 <= beta)%R -> ft_meas f = Some b -> tb_meas b = Some d -> (forall l, In l (md_labels d) -> forall o, m_rows (md_matrix d l o) = 2 /\ m_cols (md_matrix d l o) = 2) ->
  Forall (fun l => In l (md_labels d)) m -> length m = n ->
  (if qpt then
     (do l <- elements label; do p <- index_e l 0; do m <- index_e l 1;
     do p <- elements p; do op <- preparation_op p (ft_prep f); Ok (op, m))
   else Ok (eye1, label)) = Ok (P, VTup (map VStr m)) ->
  (0 < shots_of n cts)%Z -> (forall z, length z = n -> (0 <= count_of cts (key_of z))%Z) ->
  exists rows w, fitter_block f weighted beta qpt (count_keys n) label cts =
    Ok (map (fun o => (IZR (count_of cts (key_of (lebits n o))) / IZR (shots_of n cts))%R) (seq 0 (2 ^ n)), rows, w) /\
    block_rows n P d m rows /\ block_weights n weighted w.
Proof.
  intros Hn Hb Hf Hd Hsh Hm Hl Hpm Hs Hc. unfold fitter_block.
  change (map (fun k : pystr => match dget cts k with Some v => v | None => 0%Z end) (count_keys n)) with (map (fun k => count_of cts k) (count_keys n)).
  rewrite shots_sum by assumption.
  assert (Hw : exists w, (if weighted then binomial_weights (map (fun k => count_of cts k) (count_keys n)) beta else Ok []) = Ok w /\ block_weights n weighted w).
  { unfold block_weights. destruct weighted; [|exists []; auto].
    destruct (weights_positive (map (fun k => count_of cts k) (count_keys n)) beta) as (w & E & L & Pw); auto.
    - rewrite keys_outcomes by assumption. rewrite map_map. apply Forall_forall. intros x Hx. apply in_map_iff in Hx. destruct Hx as (k & <- & _). apply Hc, length_lebits.
    - now rewrite shots_sum.
    - rewrite map_length, keys_outcomes, map_length, seq_length by assumption. destruct n as [|n]; [lia|]. rewrite Nat.pow_succ_r'. assert (2 ^ n <> 0) by (apply Nat.pow_nonzero; lia). lia.
    - exists w. split; [assumption|]. split; [|assumption]. rewrite L, map_length, keys_outcomes, map_length, seq_length by assumption. reflexivity. }
  destruct Hw as (w & Ew & Hw). rewrite Ew. cbn [bind]. rewrite Hpm. cbn [bind snd elements fst]. rewrite Hf.
  destruct (mapM_total (measurement_op (Some b) (map VStr m)) (fun os op => is_tensor op (map (fun lo => at2 (md_matrix d (fst lo) (snd lo))) (combine m (rev os)))) (outcome_tuples n)) as (ops & Eo & Ho).
  { intros os Hos. rewrite outcomes_lebits in Hos. apply in_map_iff in Hos. destruct Hos as (k & <- & _). rewrite rev_involutive.
    apply (measurement_op_tensor b d); auto. rewrite length_lebits. congruence. }
  unfold measurement_ops. rewrite map_length, Hl, Eo. cbn [bind].
  rewrite outcomes_lebits in Ho. apply Forall2_map_l' in Ho. cbv beta in Ho.
  assert (Ho' : Forall2 (fun o op => is_tensor op (map (fun lo => at2 (md_matrix d (fst lo) (snd lo))) (combine m (lebits n o)))) (seq 0 (2 ^ n)) ops).
  { eapply Forall2_imp; [|exact Ho]. cbv beta. intros a op _. now rewrite rev_involutive. }
  clear Ho. assert (Hp : 2 ^ n <> 0) by (apply Nat.pow_nonzero; lia).
  assert (Hshape : Forall (fun op => m_rows op = 2 ^ n /\ m_cols op = 2 ^ n) ops).
  { apply Forall_forall. intros op Hop. destruct (Forall2_in_r _ _ _ _ Ho' Hop) as (o & _ & (Hr & Hcl & _)). rewrite map_length, combine_length, length_lebits, Hl, Nat.min_id in Hr, Hcl. auto. }
  unfold basis_operator_matrix. destruct ops as [|op0 ops0]; [exfalso; apply Forall2_length' in Ho'; rewrite seq_length in Ho'; cbn in Ho'; lia|].
  cbn [map index_e nth_error bind]. set (ops := op0 :: ops0) in *.
  change (kron (transp P) op0 :: map (kron (transp P)) ops0) with (map (kron (transp P)) ops).
  erewrite (mapM_ok _ vec_conj).
  2:{ intros x Hx. apply in_map_iff in Hx. destruct Hx as (op & <- & Hop). rewrite Forall_forall in Hshape. destruct (Hshape op Hop) as [E1 E2]. destruct (Hshape op0 (or_introl eq_refl)) as [E3 E4].
      cbn [kron m_rows m_cols]. rewrite E1, E2, E3, E4, Nat.eqb_refl. reflexivity. }
  cbn [bind]. eexists _, w. split; [|split; [|exact Hw]].
  - do 3 f_equal. rewrite keys_outcomes by assumption. rewrite !map_map. reflexivity.
  - unfold block_rows. rewrite map_map. apply Forall2_map_r'. eapply Forall2_imp; [|exact Ho']. cbv beta. intros o op _ Hop. exists op. auto.
Qed.

(** The whole system. *)
Definition pm_of (f : fitter) (qpt : bool) (label : pyval) : result (cmat * pyval) :=
  if qpt then
     (do l <- elements label; do p <- index_e l 0; do m <- index_e l 1;
     do p <- elements p; do op <- preparation_op p (ft_prep f); Ok (op, m))
  else Ok (eye1, label).
Definition label_len (label : pyval) : result nat :=
  do l0 <- elements label;
  if is_qpt label then do m <- index_e l0 1; do m <- elements m; Ok (length m) else Ok (length l0).

Lemma system_ok (f : fitter) (weighted : bool) (beta : R) (qpt : bool) n b d X D :
  1 <= n -> (0 <= beta)%R -> ft_meas f = Some b -> tb_meas b = Some d -> (forall l, In l (md_labels d) -> forall o, m_rows (md_matrix d l o) = 2 /\ m_cols (md_matrix d l o) = 2) ->
  ft_data f <> [] ->
  (forall lc, In lc (ft_data f) -> is_qpt (fst lc) = qpt /\ label_len (fst lc) = Ok n /\ exists P m,
     pm_of f qpt (fst lc) = Ok (P, VTup (map VStr m)) /\ Forall (fun l => In l (md_labels d)) m /\ length m = n /\ m_rows P * 2 ^ n = D /\ m_cols P * 2 ^ n = D /\
     (0 < shots_of n (snd lc))%Z /\ (forall z, length z = n -> (0 <= count_of (snd lc) (key_of z))%Z) /\
     forall op o, is_tensor op (map (fun lo => at2 (md_matrix d (fst lo) (snd lo))) (combine m (lebits n o))) ->
       dot (vec_conj (kron (transp P) op)) X = RtoC (IZR (count_of (snd lc) (key_of (lebits n o))) / IZR (shots_of n (snd lc)))%R) ->
  exists data rows w, fitter_data f weighted beta = Ok (data, rows, w) /\
    Forall2 (fun r y => dot r X = RtoC y) rows data /\ Forall (fun r => length r = D * D) rows /\ rows <> [] /\ good_weights rows w /\ (w = None <-> weighted = false) /\
    (forall lc, In lc (ft_data f) -> exists P m blk, pm_of f qpt (fst lc) = Ok (P, VTup (map VStr m)) /\ block_rows n P d m blk /\ incl blk rows).
Proof.
  intros Hn Hb Hf Hd Hsh Hne Hall. unfold fitter_data.
  destruct (mapM_total (fun lc => fitter_block f weighted beta qpt (count_keys n) (fst lc) (snd lc))
     (fun lc blk => let '(probs, rows, w) := blk in (exists P m, pm_of f qpt (fst lc) = Ok (P, VTup (map VStr m)) /\ block_rows n P d m rows /\ m_rows P * 2 ^ n = D /\ m_cols P * 2 ^ n = D /\ length m = n) /\
        length rows = 2 ^ n /\ Forall2 (fun r y => dot r X = RtoC y) rows probs /\ block_weights n weighted w) (ft_data f)) as (blocks & Eb & Hblk).
  { intros lc Hin. destruct (Hall lc Hin) as (_ & _ & P & m & Hpm & Hm & Hl & Hr & Hcl & Hs & Hc & Hdot).
    destruct (block_ok f weighted beta qpt n (fst lc) (snd lc) P b d m) as (rows & w & E & Hrows & Hw); auto.
    eexists. split; [exact E|]. split; [exists P, m; auto|]. split; [unfold block_rows in Hrows; apply Forall2_length' in Hrows; rewrite seq_length in Hrows; auto|].
    split; [|assumption]. apply Forall2_map_r'. eapply (Forall2_via (seq 0 (2 ^ n)) _ (fun o o' => o = o')); [|exact Hrows|clear; induction (seq 0 (2 ^ n)); constructor; auto].
    cbv beta. intros o r o' _ (op & Ht & ->) <-. apply Hdot. assumption. }
  destruct (ft_data f) as [|[l0 c0] rest] eqn:Ed; [congruence|].
  destruct (Hall (l0, c0) (or_introl eq_refl)) as (Hq & Hll & _). cbn [fst] in Hq, Hll. rewrite Hq. unfold label_len in Hll. rewrite Hq in Hll.
  destruct (elements l0) as [e0|] eqn:Ee; [|discriminate]. cbn [bind] in Hll |- *.
  assert (Ek : (if qpt then do m <- index_e e0 1; do m <- elements m; Ok (count_keys (length m)) else Ok (count_keys (length e0))) = Ok (count_keys n)).
  { destruct qpt; [|injection Hll as ->; reflexivity]. inv_bind Hll. inv_bind Hll. injection Hll as <-. rewrite E. cbn [bind]. rewrite E0. reflexivity. }
  rewrite Ek. cbn [bind]. rewrite Eb. cbn [bind].
  set (rows := flat_map (fun b => snd (fst b)) blocks).
  assert (Hp : 2 ^ n <> 0) by (apply Nat.pow_nonzero; lia).
  assert (Hlen : Forall (fun r => length r = D * D) rows).
  { apply Forall_forall. intros r Hr. apply in_flat_map in Hr. destruct Hr as ([[probs rws] w] & Hb' & Hr). cbn [fst snd] in Hr. destruct (Forall2_in_r _ _ _ _ Hblk Hb') as (lc & _ & (P & m & _ & Hrows & HR & HC & Hl) & _).
    unfold block_rows in Hrows. destruct (Forall2_in_r _ _ _ _ Hrows Hr) as (o & _ & op & (Tr & Tc & _) & ->). rewrite length_vec_conj. cbn [kron transp m_rows m_cols].
    rewrite map_length, combine_length, length_lebits, Hl, Nat.min_id in Tr, Tc. rewrite Tr, Tc, HR, HC. reflexivity. }
  assert (Hrows : rows <> []).
  { unfold rows. inversion Hblk as [|x [[pr rw] ww] xs ys Hx Hxs]; subst. destruct Hx as (_ & Hl & _). cbn [flat_map fst snd]. destruct rw; [cbn in Hl; lia|discriminate]. }
  rewrite (proj2 (forallb_forall _ rows)).
  2:{ intros r Hr. apply Nat.eqb_eq. rewrite Forall_forall in Hlen. rewrite (Hlen r Hr). destruct rows as [|r0 rs] eqn:Er; [congruence|]. cbn [nth]. symmetry. apply Hlen. now left. }
  eexists _, rows, _. split; [reflexivity|]. split; [|split; [assumption|split; [assumption|split; [|split]]]].
  - unfold rows. apply Forall2_flat. apply Forall_forall. intros [[probs rws] w] Hb'. destruct (Forall2_in_r _ _ _ _ Hblk Hb') as (lc & _ & _ & _ & H2 & _). exact H2.
  - destruct weighted; [|exact I]. cbn [good_weights]. assert (Hw : Forall (fun blk => length (snd blk) = length (snd (fst blk)) /\ Forall (fun x => (0 < x)%R) (snd blk)) blocks).
    { apply Forall_forall. intros [[probs rws] w] Hb'. destruct (Forall2_in_r _ _ _ _ Hblk Hb') as (lc & _ & _ & Hl & _ & Hw). cbn [block_weights fst snd] in *. destruct Hw. split; [congruence|assumption]. }
    clear -Hw. unfold rows. induction Hw as [|blk bs [H1 H2] _ [IH1 IH2]]; [split; [reflexivity|constructor]|]. cbn [flat_map]. rewrite !app_length. split; [lia|]. apply Forall_app. split; assumption.
  - destruct weighted; split; congruence.
  - intros lc Hin. destruct (Forall2_in_l _ _ _ _ Hblk Hin) as ([[probs rws] w] & Hb' & (P & m & Hpm & Hr & _) & _). exists P, m, rws. split; [assumption|]. split; [assumption|].
    intros r Hr'. apply in_flat_map. exists (probs, rws, w). auto.
Qed.

Section Exact.
Variable gmat : pystr -> list Q -> bits -> bits -> C.
Variables (N : nat) (c : list cinstr) (qs : list nat) (b : tbasis) (d : meas_data) (f : fitter).
Hypothesis Hne : qs <> [].
Hypothesis Hqs : NoDup qs.
Hypothesis Hlt : Forall (fun q => q < N) qs.
Hypothesis Hc : only_gates c.
Hypothesis Hf : ft_meas f = Some b.
Hypothesis Hb : tb_meas b = Some d.
Hypothesis Hd : sound_meas gmat d.
Variables (weighted : bool) (beta : R).
Hypothesis Hbeta : (0 <= beta)%R.
Notation n := (length qs).

Lemma shape_of l : In l (md_labels d) -> forall o, m_rows (md_matrix d l o) = 2 /\ m_cols (md_matrix d l o) = 2.
Proof. intros Hl o. destruct (Hd l Hl) as (V & _ & _ & Ho). destruct (Ho o) as (? & ? & _). auto. Qed.
Lemma pos_n : 1 <= n. Proof. destruct qs; [congruence|cbn; lia]. Qed.

Lemma state_system : exact_state_data gmat N c qs d (ft_data f) -> norm2 N (final gmat N c) <> 0%R ->
  exists data rows w, fitter_data f weighted beta = Ok (data, rows, w) /\
    Forall2 (fun r y => dot r (vec (2 ^ n) (state_of gmat N c qs)) = RtoC y) rows data /\ Forall (fun r => length r = 2 ^ n * 2 ^ n) rows /\ rows <> [] /\ good_weights rows w /\ (w = None <-> weighted = false) /\
    (forall lc, In lc (ft_data f) -> exists P m blk, pm_of f false (fst lc) = Ok (P, VTup (map VStr m)) /\ block_rows n P d m blk /\ incl blk rows).
Proof.
  intros [Hdn Hall] Hnz. rewrite Forall_forall in Hall.
  apply (system_ok f weighted beta false n b d); auto using pos_n; [apply shape_of|].
  intros lc Hin. destruct (Hall lc Hin) as (m & E & (Hl & Hm) & Hs & Hex). rewrite E. split; [apply is_qpt_state|].
  split; [unfold label_len; rewrite is_qpt_state; cbn; rewrite map_length; congruence|].
  exists eye1, m. split; [reflexivity|]. split; [assumption|]. split; [assumption|]. split; [cbn; lia|]. split; [cbn; lia|]. split; [assumption|]. split; [intros z Hz; apply Hex; assumption|].
  intros op o Ht. destruct (Hex (lebits n o) (length_lebits n o)) as [_ ->]. apply state_row; auto. apply length_lebits.
Qed.

Variables (pqs : list nat) (pb : tbasis) (pd : prep_data).
Hypothesis Hpqs : NoDup pqs.
Hypothesis Hplt : Forall (fun q => q < N) pqs.
Hypothesis Hlen : length pqs = n.
Hypothesis Hpf : ft_prep f = Some pb.
Hypothesis Hpb : tb_prep pb = Some pd.
Hypothesis Hpd : sound_prep gmat pd.
Lemma process_system : exact_process_data gmat N c pqs qs pd d (ft_data f) -> isometric gmat N c ->
  exists data rows w, fitter_data f weighted beta = Ok (data, rows, w) /\
    Forall2 (fun r y => dot r (vec (2 ^ n * 2 ^ n) (choi_of gmat N c pqs qs)) = RtoC y) rows data /\ Forall (fun r => length r = (2 ^ n * 2 ^ n) * (2 ^ n * 2 ^ n)) rows /\ rows <> [] /\ good_weights rows w /\ (w = None <-> weighted = false) /\
    (forall lc, In lc (ft_data f) -> exists P m blk, pm_of f true (fst lc) = Ok (P, VTup (map VStr m)) /\ block_rows n P d m blk /\ incl blk rows).
Proof.
  intros [Hdn Hall] Hiso. rewrite Forall_forall in Hall.
  apply (system_ok f weighted beta true n b d); auto using pos_n; [apply shape_of|].
  intros lc Hin. destruct (Hall lc Hin) as (p & m & E & (Hl' & Hp) & (Hl & Hm) & Hs & Hex). rewrite E. split; [reflexivity|].
  split; [unfold label_len; cbn; rewrite map_length; congruence|].
  destruct (preparation_op_tensor pb pd Hpb) with (p := p) as (P & EP & TP); [intros l Hl0; destruct (Hpd l Hl0) as (V & _ & _ & ? & ? & _); auto|assumption|].
  assert (Hdim : m_rows P = 2 ^ n /\ m_cols P = 2 ^ n) by (destruct TP as (A & B & _); rewrite map_length, Hl' in A, B; auto). destruct Hdim as [HR HC].
  exists P, m. split; [unfold pm_of; cbn [elements bind index_e nth_error]; rewrite Hpf, EP; reflexivity|]. split; [assumption|]. split; [assumption|]. rewrite HR, HC. split; [reflexivity|]. split; [reflexivity|]. split; [assumption|]. split; [intros z Hz; apply Hex; assumption|].
  intros op o Ht. destruct (Hex (lebits n o) (length_lebits n o)) as [_ ->]. apply process_row; auto. apply length_lebits.
Qed.
End Exact.
