From Coq Require Import QArith.
From Verif Require Import Base LinAlg QSem PyStr DihedralModel ResultFacts RBSeqModel RBSeqSpec RBSeqProofs RBSeqActProofs.
Open Scope nat_scope.

(** ** Rotations of the purity circuits *)
Lemma mapM_index_k {B} (f : nat -> list B) (pattern : list (list nat)) k qs : mapM (fun pat => index_e pat k) pattern = Ok qs ->
  flat_map f qs = flat_map (fun pat => f (nth k pat 0)) pattern.
Proof.
  intros H. apply mapM_inv in H. induction H as [|pat q pattern qs H1 H2 IH]; [reflexivity|]. cbn.
  apply index_inv in H1. rewrite (nth_error_nth _ _ 0 H1). f_equal. exact IH.
Qed.

Lemma digit_S d k : digit d (S k) = digit (d / 3) k.
Proof. unfold digit. rewrite Nat.pow_succ_r', Nat.div_div by (try apply Nat.pow_nonzero; lia). reflexivity. Qed.
Lemma digit_0 d : digit d 0 = d mod 3.
Proof. unfold digit. rewrite Nat.pow_0_r, Nat.div_1_r. reflexivity. Qed.
Lemma digit_lt d k : digit d k < 3.
Proof. apply Nat.mod_upper_bound. lia. Qed.
Lemma digit_small k : digit 0 k = 0.
Proof. unfold digit. rewrite Nat.div_0_l by (apply Nat.pow_nonzero; lia). reflexivity. Qed.

Definition rot_at (pattern : list (list nat)) (d k j : nat) : list cinstr :=
  flat_map (fun pat => rotation (digit d j) (nth (k + j) pat 0)) pattern.

Lemma flat_map_const_nil {A B} (l : list A) : flat_map (fun _ => @nil B) l = [].
Proof. induction l; auto. Qed.
Lemma flat_map_ext_in' {A B} (f g : A -> list B) l : (forall a, In a l -> f a = g a) -> flat_map f l = flat_map g l.
Proof. induction l as [|a l IH]; cbn; intros H; auto. rewrite (H a), IH; auto. Qed.
Lemma flat_map_seq_S {B} (f : nat -> list B) n : flat_map f (seq 0 (S n)) = f 0 ++ flat_map (fun k => f (S k)) (seq 0 n).
Proof. cbn. f_equal. rewrite <- seq_shift. generalize (seq 0 n). induction l as [|a l IH]; cbn; auto. rewrite IH. reflexivity. Qed.
Lemma map_seq_S {B} (f : nat -> B) n : map f (seq 0 (S n)) = f 0 :: map (fun k => f (S k)) (seq 0 n).
Proof. cbn. f_equal. rewrite <- seq_shift, map_map. reflexivity. Qed.

(** The loop stops after the last non-zero digit: [j] digits are read. *)
Lemma purity_loop_inv pattern : forall fuel d k cs nm k', d < fuel -> purity_loop fuel pattern d k = Ok (cs, nm, k') ->
  exists j, k' = k + j /\ 0 < j /\ d < 3 ^ j /\ (j = 1 \/ 3 ^ (j - 1) <= d) /\ nm = map (fun i => letter (digit d i)) (seq 0 j) /\
    cs = flat_map (rot_at pattern d k) (seq 0 j).
Proof.
  induction fuel as [|fuel IH]; intros d k cs nm k' Hf H; [lia|]. cbn [purity_loop] in H.
  set (rot := match d mod 3 with 0 => _ | _ => _ end) in H.
  assert (Hrot : forall r, rot = Ok r -> fst r = rot_at pattern d k 0 /\ snd r = letter (digit d 0)).
  { intros r Hr. subst rot. unfold rot_at. rewrite digit_0, Nat.add_0_r.
    pose proof (Nat.mod_upper_bound d 3 ltac:(lia)) as Hm. destruct (d mod 3) as [|[|[|x]]]; [| | |lia].
    - injection Hr as <-. cbn. split; [symmetry; apply flat_map_const_nil | reflexivity].
    - inv_bind Hr. injection Hr as <-. split; [|reflexivity]. cbn [fst]. rewrite <- (mapM_index_k (fun q => rotation 1 q) _ _ _ E).
      clear. induction v as [|q v IH]; cbn; [reflexivity|]. rewrite IH. reflexivity.
    - inv_bind Hr. injection Hr as <-. split; [|reflexivity]. cbn [fst]. rewrite <- (mapM_index_k (fun q => rotation 2 q) _ _ _ E).
      clear. induction v as [|q v IH]; cbn; [reflexivity|]. rewrite IH. reflexivity. }
  clearbody rot. inv_bind H. destruct (Hrot _ E) as [R1 R2]. clear Hrot E.
  destruct (Nat.eqb_spec (d / 3) 0) as [E0|E0].
  - injection H as <- <- <-. exists 1. cbn [seq map flat_map Nat.pow Nat.sub]. rewrite app_nil_r, R1, R2.
    apply Nat.div_small_iff in E0; [|lia]. repeat split; auto; lia.
  - inv_bind H. destruct v0 as [[c n] k2]. injection H as <- <- <-.
    assert (Hd : d / 3 < fuel). { pose proof (Nat.div_lt d 3). destruct d; [cbn in E0; lia|]. lia. }
    destruct (IH _ _ _ _ _ Hd E) as (j & -> & Hj & Hlt & Hge & -> & ->).
    exists (S j). split; [lia|]. split; [lia|]. split; [cbn [Nat.pow]; pose proof (Nat.div_mod d 3); pose proof (Nat.mod_upper_bound d 3); lia|].
    split.
    + right. pose proof (Nat.div_mod d 3 ltac:(lia)) as Hdm. assert (3 ^ (j - 1) <= d / 3) by (destruct Hge as [->|Hge]; [change (3 ^ (1 - 1)) with 1; lia | exact Hge]).
      replace (S j - 1) with (S (j - 1)) by lia. cbn [Nat.pow]. lia.
    + rewrite map_seq_S, flat_map_seq_S, R1, R2. split.
      * f_equal. apply map_ext. intros i. rewrite digit_S. reflexivity.
      * f_equal. apply flat_map_ext_in'. intros i _. unfold rot_at. rewrite digit_S. replace (S k + i) with (k + S i) by lia. reflexivity.
Qed.

Lemma digits_beyond d j i : d < 3 ^ j -> j <= i -> digit d i = 0.
Proof.
  intros H Hi. unfold digit. rewrite Nat.div_small; [reflexivity|]. eapply Nat.lt_le_trans; [exact H|]. apply Nat.pow_le_mono_r; lia.
Qed.

Lemma purity_loop_full pattern dim d cs nm k' : d < 3 ^ dim -> 0 < dim -> purity_loop (S d) pattern d 0 = Ok (cs, nm, k') ->
  nm ++ repeat "Z"%char (dim - k') = letters dim d /\ cs = rotations pattern dim d.
Proof.
  intros Hd Hdim H. apply purity_loop_inv in H; [|lia]. destruct H as (j & -> & Hj & Hlt & Hge & -> & ->).
  assert (j <= dim) as Hjd.
  { destruct Hge as [->|Hge]; [lia|]. destruct (Nat.le_gt_cases j dim) as [|Hgt]; [assumption|exfalso].
    assert (3 ^ dim <= 3 ^ (j - 1)) by (apply Nat.pow_le_mono_r; lia). lia. }
  cbn [Nat.add]. unfold letters, rotations. replace dim with (j + (dim - j)) at 2 3 by lia. rewrite seq_app, map_app, flat_map_app'. cbn [Nat.add].
  split.
  - f_equal. assert (Hz : forall l, (forall i, In i l -> j <= i) -> map (fun k => letter (digit d k)) l = repeat "Z"%char (length l)).
    { induction l as [|i l IH]; intros Hl; cbn [map length repeat]; [reflexivity|]. rewrite IH by (intros; apply Hl; right; assumption).
      rewrite (digits_beyond d j i); auto. apply Hl. left; reflexivity. }
    rewrite Hz, seq_length; [reflexivity|]. intros i Hi. apply in_seq in Hi. lia.
  - match goal with |- _ = _ ++ ?m => assert (m = []) as -> end; [|rewrite app_nil_r; reflexivity].
    rewrite (flat_map_ext_in' _ (fun _ => [])); [apply flat_map_const_nil|]. intros i Hi. apply in_seq in Hi.
    rewrite (digits_beyond d j i) by (auto; lia). apply flat_map_const_nil.
Qed.

Lemma purity_circuit_inv t pattern qlist dim body li sd d c : d < 3 ^ dim -> 0 < dim -> purity_circuit t pattern qlist dim body li sd d = Ok c ->
  cname c = expected_name t dim (KPur d) li sd /\ cbody c = (body ++ rotations pattern dim d) ++ measures qlist.
Proof.
  unfold purity_circuit. intros Hd Hdim H. inv_bind H. destruct v as [[cs nm] k']. injection H as <-.
  destruct (purity_loop_full _ _ _ _ _ _ Hd Hdim E) as [_ ->]. cbn [cname cbody]. split; [|rewrite app_assoc; reflexivity].
  unfold expected_name. destruct (purity_loop_full _ _ _ _ _ _ Hd Hdim E) as [<- _]. unfold len_seed. destruct t; rewrite <- ?app_assoc; reflexivity.
Qed.

(** Every pattern has the k-th qubit when the dimensions are equal. *)
Lemma purity_loop_total pattern dim : (forall pat, In pat pattern -> length pat = dim) -> forall fuel d k, d < fuel -> (d <> 0 -> d < 3 ^ (dim - k)) -> 
  exists r, purity_loop fuel pattern d k = Ok r.
Proof.
  intros Hp. induction fuel as [|fuel IH]; intros d k Hf Hd; [lia|]. cbn [purity_loop].
  assert (exists r, match d mod 3 with
    | 0 => Ok ([], "Z"%char)
    | 1 => do qs <- mapM (fun pat => index_e pat k) pattern; Ok (map rx_half qs, "X"%char)
    | _ => do qs <- mapM (fun pat => index_e pat k) pattern; Ok (map ry_half qs, "Y"%char)
    end = Ok r) as [r ->].
  { destruct (d mod 3) eqn:Em; [eauto|].
    assert (k < dim). { destruct (Nat.le_gt_cases dim k) as [Hle|]; [|assumption]. assert (d <> 0) by (intros ->; discriminate). specialize (Hd H). replace (dim - k) with 0 in Hd by lia. cbn in Hd. lia. }
    assert (mapM (fun pat => index_e pat k) pattern = Ok (map (fun pat => nth k pat 0) pattern)) as Hm.
    { apply mapM_ok. intros pat Hpat. apply index_ok. apply nth_error_nth'. rewrite (Hp pat Hpat). assumption. }
    rewrite Hm. destruct n; cbn; eauto. }
  cbn [bind]. destruct (Nat.eqb_spec (d / 3) 0) as [|n]; [eauto|].
  destruct (IH (d / 3) (S k)) as [[[c n'] k'] ->]; cbn [bind]; eauto.
  - pose proof (Nat.div_lt d 3). destruct d; [cbn in n; lia | lia].
  - intros _. assert (d <> 0) by (intros ->; cbn in n; lia). specialize (Hd H). destruct (dim - k) as [|m] eqn:Em; [cbn in Hd; lia|].
    replace (dim - S k) with m by lia. cbn [Nat.pow] in Hd. apply Nat.div_lt_upper_bound; lia.
Qed.

(** ** Emission *)
Section Run.
Variable grp : group_type -> group.
Variable t : group_type.
Variable pattern : list (list nat).
Variable max_dim : nat.
Variable mult : list num.
Variable align : bool.
Variable inter : option (list (elem (grp t))).
Variable lv : list nat.
Variable is_purity : bool.
Variable offset : Z.
Notation G := (grp t).
Notation qlist := (concat pattern).
Hypothesis Hdim : is_purity = true -> 0 < max_dim /\ length (qubits_of pattern 0) = max_dim.

Definition start (rs : option Z) (cnt : nat) (e0 : list (elem G)) : st grp t :=
  {| s_rs := rs; s_cnt := cnt; s_el := e0; s_eli := e0; s_gc := []; s_ic := [] |}.

Lemma els_elements it p steps : els grp t it p (concat steps) = elements G it p steps.
Proof.
  unfold els, elements. apply flat_map_ext_in'. intros ev Hev. apply filter_In in Hev. destruct Hev as [_ Ep]. apply Nat.eqb_eq in Ep. rewrite Ep. reflexivity.
Qed.

Lemma recovery_ok it steps l0 l1 cs : mapM (fun pat => g_iden G (length pat)) pattern = Ok l0 -> upd_els grp t it (concat steps) l0 l1 ->
  inverses grp t pattern l1 = Ok cs -> cs = recovery G pattern it steps.
Proof.
  intros H0 [Hl Hu] Hi. apply inverses_inv in Hi. destruct Hi as [-> Hle]. unfold recovery. apply flat_map_ext_in'. intros p Hp. apply in_seq in Hp.
  apply mapM_inv in H0. pose proof (Forall2_length' _ _ _ H0) as L0.
  destruct (nth_error l0 p) as [e0|] eqn:E0; [|apply nth_error_None in E0; lia].
  pose proof (Forall2_nth _ _ _ _ _ _ H0 (pat_nth pattern p ltac:(lia)) E0) as Eid. cbn beta in Eid.
  destruct (Hu p e0 E0) as [e1 [E1 F1]]. rewrite E1. unfold product. rewrite Eid. cbn [bind]. rewrite <- els_elements, F1. reflexivity.
Qed.

Lemma measures_spec qs : measures qs = map (fun i => CMeasure (nth i qs 0) i) (seq 0 (length qs)).
Proof.
  unfold measures. assert (H : forall k l, map (fun p : nat * nat => CMeasure (snd p) (fst p)) (combine (seq k (length l)) l) = map (fun i => CMeasure (nth (i - k) l 0) i) (seq k (length l))).
  { intros k l. revert k. induction l as [|q l IH]; intros k; cbn; [reflexivity|]. rewrite Nat.sub_diag. f_equal. rewrite IH. apply map_ext_in.
    intros i Hi. apply in_seq in Hi. replace (i - k) with (S (i - S k)) by lia. reflexivity. }
  rewrite H. apply map_ext. intros i. rewrite Nat.sub_0_r. reflexivity.
Qed.

(** Which circuit of [outs] is of which kind. *)
Definition pick (k : kind) (o : outs) : option circ :=
  match k with
  | KStd => Some (o_std o)
  | KInt => match inter with Some _ => Some (o_int o) | None => None end
  | KX => match t with TDihedral => Some (o_dih o) | TClifford => None end
  | KIntX => match t, inter with TDihedral, Some _ => Some (o_dihint o) | _, _ => None end
  | KPur d => if is_purity then nth_error (o_pur o) d else None
  end.

Lemma emit_inv seed li s e0 rs cnt steps o : mapM (fun pat => g_iden G (length pat)) pattern = Ok e0 ->
  reached grp t pattern mult align inter seed (length steps) (start rs cnt e0) s steps ->
  emit grp t pattern qlist max_dim inter is_purity offset seed li s = Ok o ->
  (is_purity = true -> length (o_pur o) = 3 ^ max_dim) /\
  forall k c, pick k o = Some c ->
    cname c = expected_name t max_dim k li (Z.of_nat seed + offset) /\
    measured (expected_body G pattern inter align k steps) qlist c.
Proof.
  intros H0 (_ & _ & T) H. unfold emit in H. inv_bind H. inv_bind H. inv_bind H. rename v into inv. rename v0 into invi. rename v1 into pur.
  destruct T as [_ _ _ _ Hel Heli Hgc Hic]. cbn [start s_el s_eli s_gc s_ic app] in *.
  pose proof (recovery_ok _ _ _ _ _ H0 Hel E) as ->.
  assert (Hi : inter <> None -> s_ic grp t s ++ invi = seq_body G pattern inter align steps ++ recovery G pattern inter steps).
  { intros Hn. specialize (Heli Hn). rewrite Hic. unfold iseq. destruct inter as [ies|] eqn:Ei; [|congruence].
    pose proof (recovery_ok _ _ _ _ _ H0 Heli E0) as ->. reflexivity. }
  assert (Hp : is_purity = true -> length pur = 3 ^ max_dim /\ forall d c, nth_error pur d = Some c -> d < 3 ^ max_dim /\
     purity_circuit t pattern qlist max_dim (s_gc grp t s ++ recovery G pattern None steps) li (Z.of_nat seed + offset) d = Ok c).
  { intros Hp. rewrite Hp in E1. apply mapM_inv in E1. pose proof (Forall2_length' _ _ _ E1) as L. rewrite seq_length in L. split; [auto|].
    intros d c Hd. pose proof (nth_error_lt _ _ _ Hd) as Hlt. split; [lia|].
    refine (Forall2_nth _ _ _ d _ _ E1 _ Hd). rewrite nth_error_nth' with (d := 0) by (rewrite seq_length; lia). rewrite seq_nth by lia. reflexivity. }
  injection H as <-. split; [intros Hpt; apply Hp, Hpt|]. intros k c Hk. unfold measured. rewrite <- measures_spec.
  unfold pick in Hk. destruct k as [| | | |d]; cbn [o_std o_int o_dih o_dihint o_pur] in Hk.
  - injection Hk as <-. cbn [cname cbody]. split; [destruct t; reflexivity|]. rewrite Hgc. reflexivity.
  - assert (inter <> None) as Hn by (destruct inter; congruence). specialize (Hi Hn).
    destruct inter as [ies|] eqn:Ei; [|discriminate]. injection Hk as <-. cbn [cname cbody]. split; [destruct t; reflexivity|]. rewrite Hi. reflexivity.
  - destruct t as [|] eqn:Et; [discriminate|]. injection Hk as <-. cbn [cname cbody]. split; [reflexivity|]. rewrite Hgc.
    cbn [expected_body]. unfold in_x_basis. rewrite <- !app_assoc. reflexivity.
  - assert (inter <> None) as Hn by (destruct t; destruct inter; congruence). specialize (Hi Hn).
    destruct t as [|] eqn:Et; [discriminate|]. destruct inter as [ies|] eqn:Ei; [|discriminate]. injection Hk as <-. cbn [cname cbody].
    split; [reflexivity|]. rewrite Hi. cbn [expected_body]. unfold in_x_basis. rewrite <- !app_assoc. reflexivity.
  - destruct is_purity; [|discriminate]. destruct (Hp eq_refl) as [_ Hp']. destruct (Hp' d c Hk) as [Hd Hc]. destruct (Hdim eq_refl) as [Hd0 Hdd].
    destruct (purity_circuit_inv _ _ _ _ _ _ _ _ _ Hd Hd0 Hc) as [A B]. split; [exact A|]. rewrite B. unfold expected_body. rewrite Hdd, Hgc. reflexivity.
Qed.

(** ** A seed *)
Lemma one_seed_inv rs cnt seed rs' cnt' os : one_seed grp t pattern qlist max_dim mult align inter lv is_purity offset rs cnt seed = Ok (rs', cnt', os) ->
  exists e0 steps last, mapM (fun pat => g_iden G (length pat)) pattern = Ok e0 /\ (exists lv', lv = lv' ++ [last]) /\ length steps = last /\
    Forall (fun evs => map ev_p evs = schedule pattern mult) steps /\ Forall (drawn G pattern) (concat steps) /\
    map ev_k (concat steps) = seq cnt (length (concat steps)) /\ cnt' = cnt + length (concat steps) /\
    seeds_chain seed rs (map ev_rs (concat steps)) rs' /\
    length os <= length lv /\ (ascending lv -> length os = length lv) /\
    forall i o, nth_error os i = Some o -> exists r s, nth_error lv i = Some r /\ r <= length steps /\
      reached grp t pattern mult align inter seed r (start rs cnt e0) s (firstn r steps) /\
      emit grp t pattern qlist max_dim inter is_purity offset seed i s = Ok o.
Proof.
  unfold one_seed. intros H. inv_bind H. inv_bind H. inv_bind H. rename v into e0. rename v0 into last. destruct v1 as [[s li] os'].
  injection H as <- <- <-. change {| s_rs := rs; s_cnt := cnt; s_el := e0; s_eli := e0; s_gc := []; s_ic := [] |} with (start rs cnt e0) in E1.
  pose proof (seed_loop_inv grp t pattern qlist eq_refl max_dim mult align inter lv is_purity offset seed _ _ _ E1) as (steps & (L & P & T) & Los & Ho).
  cbn [fst snd] in *. exists e0, steps, last. split; [exact E|].
  assert (Hlast : exists lv', lv = lv' ++ [last]).
  { destruct (rev lv) as [|x l] eqn:Er; [discriminate|]. injection E0 as <-. exists (rev l). rewrite <- (rev_involutive lv), Er. reflexivity. }
  split; [exact Hlast|]. split; [exact L|]. split; [exact P|]. split; [apply T|]. split; [apply T|]. split; [apply T|]. split; [apply T|].
  assert (Hle : length os' <= length lv).
  { destruct (length os') as [|n] eqn:En; [lia|]. destruct (nth_error os' n) as [o|] eqn:Eo; [|apply nth_error_None in Eo; lia].
    destruct (Ho n o Eo) as (r & _ & Hr & _). apply nth_error_lt in Hr. lia. }
  split; [exact Hle|]. split.
  - intros Ha. destruct Hlast as [lv' Hlv]. rewrite Los.
    pose proof (seed_loop_count grp t pattern qlist max_dim mult align inter lv is_purity offset seed _ _ Ha _ E1) as Hc. cbn [fst snd] in Hc.
    assert (nth_error lv (length lv') = Some last) as Hn by (rewrite Hlv, nth_error_app2, Nat.sub_diag by lia; reflexivity).
    pose proof (proj2 (Hc _ _ Hn) (le_n _)). rewrite Hlv, app_length in *. cbn in *. lia.
  - intros i o Hi. destruct (Ho i o Hi) as (r & s' & A & B & C & D). exists r, s'. rewrite L. auto.
Qed.

(** ** All the seeds *)
Fixpoint chain_all (k : nat) (rs : option Z) (logs : list (list (list (event G)))) : Prop :=
  match logs with
  | [] => True
  | steps :: logs' => exists rs', seeds_chain k rs (map ev_rs (concat steps)) rs' /\ chain_all (S k) rs' logs'
  end.

Record seed_facts (seed : nat) (os : list outs) (steps : list (list (event G))) : Prop := {
  sf_last : exists lv', lv = lv' ++ [length steps];
  sf_sched : Forall (fun evs => map ev_p evs = schedule pattern mult) steps;
  sf_drawn : Forall (drawn G pattern) (concat steps);
  sf_le : length os <= length lv;
  sf_count : ascending lv -> length os = length lv;
  sf_outs : forall i o, nth_error os i = Some o -> exists r s e0 rs cnt, nth_error lv i = Some r /\ r <= length steps /\
      mapM (fun pat => g_iden G (length pat)) pattern = Ok e0 /\
      reached grp t pattern mult align inter seed r (start rs cnt e0) s (firstn r steps) /\
      emit grp t pattern qlist max_dim inter is_purity offset seed i s = Ok o
}.

Lemma all_seeds_loop n : forall k rs cnt os0 rs' cnt' os,
  foldM (fun acc seed => let '(rs, cnt, os) := acc in
           do o <- one_seed grp t pattern qlist max_dim mult align inter lv is_purity offset rs cnt seed;
           let '(rs', cnt', outs) := o in Ok (rs', cnt', os ++ [outs])) (seq k n) (rs, cnt, os0) = Ok (rs', cnt', os) ->
  exists logs os1, os = os0 ++ os1 /\ length logs = n /\ length os1 = n /\ chain_all k rs logs /\
    map ev_k (concat (concat logs)) = seq cnt (length (concat (concat logs))) /\
    forall s o steps, nth_error os1 s = Some o -> nth_error logs s = Some steps -> seed_facts (k + s) o steps.
Proof.
  induction n as [|n IH]; intros k rs cnt os0 rs' cnt' os H.
  - cbn in H. injection H as <- <- <-. exists [], []. rewrite app_nil_r. split; [reflexivity|]. split; [reflexivity|]. split; [reflexivity|]. split; [exact I|].
    split; [reflexivity|]. intros [|s] o steps Hs; discriminate.
  - cbn [seq foldM] in H. inv_bind H. inv_bind E. destruct v0 as [[rs1 cnt1] outs1]. injection E as <-. 
    apply one_seed_inv in E0. destruct E0 as (e0 & steps & last & A1 & A2 & A3 & A4 & A5 & A6 & A7 & A8 & A9 & A10 & A11).
    destruct (IH _ _ _ _ _ _ _ H) as (logs & os1 & -> & B1 & B2 & B3 & B4 & B5).
    exists (steps :: logs), (outs1 :: os1). split; [rewrite <- app_assoc; reflexivity|]. split; [cbn; lia|]. split; [cbn; lia|].
    split; [exists rs1; auto|]. split.
    + cbn [concat]. rewrite concat_app, map_app, app_length, seq_app, A6, B4, A7. reflexivity.
    + intros [|s] o steps' Ho Hs; cbn in Ho, Hs.
      * injection Ho as <-. injection Hs as <-. rewrite Nat.add_0_r. constructor; auto.
        -- rewrite A3. exact A2.
        -- intros i o Hi. destruct (A11 i o Hi) as (r & s' & C1 & C2 & C3 & C4). exists r, s', e0, rs, cnt. auto.
      * rewrite Nat.add_succ_r. apply (B5 s); auto.
Qed.

Lemma all_seeds_inv rs n os : all_seeds grp t pattern qlist max_dim mult align inter lv is_purity offset rs n = Ok os ->
  exists logs, length logs = n /\ length os = n /\ chain_all 0 rs logs /\
    map ev_k (concat (concat logs)) = seq 0 (length (concat (concat logs))) /\
    forall s o steps, nth_error os s = Some o -> nth_error logs s = Some steps -> seed_facts s o steps.
Proof.
  unfold all_seeds. intros H. inv_bind H. injection H as <-. destruct v as [[rs' cnt'] os].
  destruct (all_seeds_loop _ _ _ _ _ _ _ _ E) as (logs & os1 & -> & A). cbn [snd app]. exists logs. exact A.
Qed.
End Run.
