(** Proofs of the theorems of RBSeqProperties. *)
From Coq Require Import QArith Sorted.
From Verif Require Import Base LinAlg QSem Cyc GateMat PyStr DihedralModel DihedralSpec ResultFacts RBSeqModel RBSeqSpec RBSeqProofs RBSeqActProofs RBSeqRunProofs RBSeqTopProofs RBSeqIdProofs RBSeqDihProofs.
Open Scope nat_scope.

Lemma Forall2_len {A B} (R : A -> B -> Prop) l l' : Forall2 R l l' -> length l = length l'.
Proof. induction 1; cbn; auto. Qed.

(** ** Identity *)
Lemma kind_of_returned grp a out t inter k css s cs i c : randomized_benchmarking_seq grp a = Ok out -> rb_group_of (a_group _ a) = Ok t ->
  handle_interleaved_elem grp t (a_inter _ a) = Ok inter ->
  returned out k = Some css -> nth_error css s = Some cs -> nth_error cs i = Some c -> t = TDihedral \/ (k <> KX /\ k <> KIntX).
Proof.
  intros H Ht Hi Hr Hs Hc. destruct (seq_inv grp a out H) as (m & d & mult & t' & inter' & os & _ & _ & Ht' & Hi' & _ & _ & Hk).
  rewrite Ht in Ht'. injection Ht' as <-. rewrite Hi in Hi'. injection Hi' as <-.
  destruct (Hk k css Hr) as (f & -> & Hp).
  set (o := {| o_std := {| cname := []; cbody := [] |}; o_int := {| cname := []; cbody := [] |}; o_dih := {| cname := []; cbody := [] |};
               o_dihint := {| cname := []; cbody := [] |}; o_pur := repeat {| cname := []; cbody := [] |} (3 ^ d) |}).
  specialize (Hp o (fun _ => repeat_length _ _)). destruct t; [right | left; reflexivity]. split; intros ->; cbn in Hp; discriminate.
Qed.


Lemma identity_final {F : Type} {HF : Fld F} (gmat : pystr -> list Q -> bits -> bits -> F) grp a out t valid k css s cs i c N :
  randomized_benchmarking_seq grp a = Ok out -> rb_group_of (a_group _ a) = Ok t -> contract gmat grp a t valid ->
  returned out k = Some css -> nth_error css s = Some cs -> nth_error cs i = Some c ->
  (forall q, In q (concat (default_pattern (a_pat _ a))) -> q < N) ->
  exists body, cbody c = body ++ rots_of (default_pattern (a_pat _ a)) k ++ measurements (concat (default_pattern (a_pat _ a))) /\
    identity_on gmat N (gates body) /\
    forall pat, In pat (default_pattern (a_pat _ a)) -> identity_on gmat N (within pat (gates body)).
Proof.
  intros H Ht [L D I Hh] Hr Hs Hc HN. destruct (run_explained grp a out H) as (t' & mult & inter & logs & Ht' & Hm & Hi & _ & Ex & _).
  rewrite Ht in Ht'. injection Ht' as <-.
  pose proof (kind_of_returned grp a out t inter k css s cs i c H Ht Hi Hr Hs Hc) as Hkind.
  destruct (ex_circuits _ _ _ _ _ _ _ Ex k css Hr) as [_ E]. destruct (E s cs Hs) as (steps & Hl & _ & _ & Ec). destruct (Ec i c Hc) as (r & Hri & Hrl & Hn & Hb).
  assert (Hnd : NoDup (concat (default_pattern (a_pat _ a)))).
  { destruct (seq_inv grp a out H) as (m & d & ? & ? & ? & ? & Hcp & _). apply (check_pattern_inv _ _ _ _ Hcp). }
  set (pattern := default_pattern (a_pat _ a)) in *.
  assert (I' : forall ies p ie, inter = Some ies -> nth_error ies p = Some ie -> p < length pattern -> valid (length (qubits_of pattern p)) ie).
  { intros ies p ie -> Hie Hp. apply (I ies p (qubits_of pattern p) ie Hi); [|exact Hie]. apply nth_error_nth', Hp. }
  destruct (expected_identity gmat grp t pattern inter valid Hnd L D I' (a_align _ a) k (firstn r steps) N Hkind Hh (logs_good _ _ _ _ _ _ _ s steps r Ex Hl) HN) as [Hp Hid].
  exists (expected_body (grp t) pattern inter (a_align _ a) (before_rotations k) (firstn r steps)). split; [|split; [exact Hid|]].
  - unfold measured in Hb. rewrite Hb. rewrite app_assoc. f_equal. destruct k; cbn [expected_body before_rotations rots_of]; rewrite ?app_nil_r; reflexivity.
  - intros pat Hin. destruct (In_nth pattern pat [] Hin) as (p & Hpl & <-). apply (Hp p Hpl).
Qed.

(** On the ground state the circuit, up to the measurements, does nothing but
    multiply by a factor. *)
Lemma ground_final {F : Type} {HF : Fld F} (gmat : pystr -> list Q -> bits -> bits -> F) grp a out t valid k css s cs i c N :
  randomized_benchmarking_seq grp a = Ok out -> rb_group_of (a_group _ a) = Ok t -> contract gmat grp a t valid ->
  returned out k = Some css -> (forall d, k <> KPur d) -> nth_error css s = Some cs -> nth_error cs i = Some c ->
  (forall q, In q (concat (default_pattern (a_pat _ a))) -> q < N) ->
  exists z, z <> 0%F /\ forall x, length x = N -> QSem.run (map (op_of gmat) (gates (cbody c))) (ground N) x = (z * ground N x)%F.
Proof.
  intros H Ht C Hr Hk Hs Hc HN. destruct (identity_final gmat grp a out t valid k css s cs i c N H Ht C Hr Hs Hc HN) as (body & E & (z & Hz & Hid) & _).
  exists z. split; [exact Hz|]. intros x Hx. rewrite E. replace (rots_of _ k) with (@nil cinstr) by (destruct k; try reflexivity; exfalso; eapply Hk; reflexivity).
  unfold gates. rewrite flat_map_app. cbn [app]. replace (flat_map _ (measurements _)) with (@nil ginstr).
  - rewrite app_nil_r. apply (Hid (ground N) x Hx).
  - unfold measurements. generalize (concat (default_pattern (a_pat _ a))). intros l. generalize (seq 0 (length l)). intros l'. induction l'; cbn; auto.
Qed.

(** ** Acceptance *)
Lemma accepted {F : Type} {HF : Fld F} (gmat : pystr -> list Q -> bits -> bits -> F) grp a t mult inter valid :
  NoDup (concat (default_pattern (a_pat _ a))) -> concat (default_pattern (a_pat _ a)) <> [] ->
  (a_pur _ a = true -> forall p q, In p (default_pattern (a_pat _ a)) -> In q (default_pattern (a_pat _ a)) -> length p = length q) ->
  (forall l, a_inter _ a = Some l -> map (ielem_qubits grp) l = map (@length nat) (default_pattern (a_pat _ a))) ->
  rb_group_of (a_group _ a) = Ok t -> handle_interleaved_elem grp t (a_inter _ a) = Ok inter ->
  handle_length_multiplier (a_mult _ a) (length (default_pattern (a_pat _ a))) (a_pur _ a) = Ok mult -> Forall (fun m => is_int m = true) mult ->
  default_lv (a_lv _ a) <> [] -> contract gmat grp a t valid ->
  exists out, randomized_benchmarking_seq grp a = Ok out.
Proof.
  intros Hnd Hne Hpur Hint Ht Hi Hm Hmi Hlv [L D I _]. unfold randomized_benchmarking_seq.
  set (pattern := default_pattern (a_pat _ a)) in *.
  destruct (check_pattern_total pattern (a_pur _ a) (option_map (map (ielem_qubits grp)) (a_inter _ a)) Hnd Hne Hpur) as (r & Er).
  { intros dims E. destruct (a_inter _ a) as [l|]; [|discriminate]. cbn in E. injection E as <-. apply Hint. reflexivity. }
  destruct (check_pattern_inv _ _ _ _ Er) as (_ & _ & _ & _ & Ef & _ & Ed). rewrite Er. destruct r as [[q m] d]. cbn [fst snd bind] in *. subst q. rewrite Hm. cbn [bind]. rewrite Ht. cbn [bind]. rewrite Hi. cbn [bind].
  assert (Lm : length mult = length pattern).
  { unfold handle_length_multiplier in Hm. destruct (a_mult _ a) as [|x|l]; [discriminate | injection Hm as <-; apply repeat_length|].
    destruct (a_pur _ a); [discriminate|]. destruct (Nat.eqb_spec (length l) (length pattern)) as [E|]; [|discriminate]. cbn [negb] in Hm.
    destruct (negb _); [discriminate|]. destruct (existsb _ _); [discriminate|]. injection Hm as <-. exact E. }
  destruct (all_seeds_total gmat grp t pattern d mult (a_align _ a) inter (default_lv (a_lv _ a)) (a_pur _ a) (a_off _ a) valid L D) with (rs := a_rs _ a) (n := a_nseeds _ a) as (os & Eo); try exact Hlv.
  - intros ies p -> Hp.
    assert (El : length ies = length pattern).
    { unfold handle_interleaved_elem in Hi. destruct (a_inter _ a) as [l|]; [|discriminate]. inv_bind Hi. injection Hi as <-. apply mapM_inv in E. rewrite <- (Forall2_len _ _ _ E).
      rewrite <- (map_length (ielem_qubits grp)), (Hint l eq_refl), map_length. reflexivity. }
    destruct (nth_error ies p) as [ie|] eqn:Ep; [|apply nth_error_None in Ep; lia]. exists ie. split; [reflexivity|].
    apply (I ies p (qubits_of pattern p) ie Hi); [apply nth_error_nth', Hp | exact Ep].
  - intros p Hp. destruct (nth_error mult p) as [[z|z]|] eqn:Ep; [exists z; reflexivity | | apply nth_error_None in Ep; lia].
    apply nth_error_In in Ep. rewrite Forall_forall in Hmi. specialize (Hmi _ Ep). discriminate.
  - intros Hp pat Hin. destruct Ed as [Hd _]. apply in_map_iff in Hd as (pat' & <- & Hin'). apply (Hpur Hp); assumption.
  - rewrite Eo. cbn [bind]. destruct (a_pur _ a), inter, t; eauto.
Qed.

(** ** Counting elements *)
Lemma xdata_counts grp a out : randomized_benchmarking_seq grp a = Ok out ->
  exists t mult inter logs, rb_group_of (a_group _ a) = Ok t /\ handle_interleaved_elem grp t (a_inter _ a) = Ok inter /\
    explained grp a out t mult inter logs /\
    length (xdata_of out) = length mult /\
    forall p row z i, p < length (default_pattern (a_pat _ a)) -> nth_error (xdata_of out) p = Some row -> nth_error row i = Some (NInt z) ->
      exists r, nth_error (default_lv (a_lv _ a)) i = Some r /\
        forall s steps, nth_error logs s = Some steps -> r <= length steps ->
          drawn_for (grp t) p (firstn r steps) = Z.to_nat z /\
          length (elements (grp t) None p (firstn r steps)) = Z.to_nat z.
Proof.
  intros H. destruct (run_explained grp a out H) as (t & mult & inter & logs & Ht & Hm & Hi & Hx & Ex & _). exists t, mult, inter, logs.
  split; [exact Ht|]. split; [exact Hi|]. split; [exact Ex|]. split; [rewrite Hx; unfold calc_xdata; apply map_length|].
  intros p row z i Hp Hrow Hz. rewrite Hx in Hrow. unfold calc_xdata in Hrow. apply nth_error_map' in Hrow as (m & Hmm & ->).
  apply nth_error_map' in Hz as (r & Hr & Ez). exists r. split; [exact Hr|]. intros s steps Hs Hle.
  assert (E : drawn_for (grp t) p (firstn r steps) = Z.to_nat z).
  { rewrite (drawn_count (grp t) _ mult logs s steps r p (ex_turns _ _ _ _ _ _ _ Ex) Hs Hle Hp), Hmm. destruct m as [y|y]; [|discriminate]. cbn in Ez. injection Ez as ->.
    destruct (Z.le_gt_cases 0 y) as [Hy|Hy]; [rewrite Z2Nat.inj_mul by lia; rewrite Nat2Z.id; reflexivity|].
    replace (Z.to_nat y) with 0 by lia. replace (Z.to_nat (Z.of_nat r * y)) with 0; [lia|]. assert (Z.of_nat r * y <= 0)%Z by nia. lia. }
  split; [exact E|]. rewrite <- E. unfold elements, drawn_for. generalize (filter (fun ev => ev_p ev =? p) (concat (firstn r steps))). intros l. induction l as [|e l IH]; cbn; [reflexivity | f_equal; exact IH].
Qed.

(** ** Seeds of the draws *)

Lemma chain_zero seed l rs' : seeds_chain seed (Some 0%Z) l rs' -> Forall (eq (Some 0%Z)) l /\ rs' = Some 0%Z.
Proof. revert rs'. induction l as [|r l IH]; intros rs' H; cbn in H; [subst; auto|]. destruct H as [E H]. cbn in E. subst r. destruct (IH _ H). auto. Qed.
Lemma chain_none seed l rs' : seeds_chain seed None l rs' -> Forall (eq None) l /\ rs' = None.
Proof. revert rs'. induction l as [|r l IH]; intros rs' H; cbn in H; [subst; auto|]. destruct H as [E H]. cbn in E. subst r. destruct (IH _ H). auto. Qed.
Lemma chain_pos seed l : forall z rs', (0 < z)%Z -> seeds_chain seed (Some z) l rs' -> 
  StronglySorted olt l /\ Forall (above z) l /\ exists z', rs' = Some z' /\ (z <= z')%Z /\ Forall (fun o => exists y, o = Some y /\ (y <= z')%Z) l.
Proof.
  induction l as [|r l IH]; intros z rs' Hz H; cbn in H.
  - subst. split; [constructor|]. split; [constructor|]. exists z. repeat split; [lia | constructor].
  - destruct H as [E H]. unfold next_seed in E. replace (z =? 0)%Z with false in E by lia. subst r.
    destruct (IH (z + Z.of_nat seed + 1)%Z rs' ltac:(lia) H) as (S & A & z' & -> & Hle & B).
    split; [|split].
    + constructor; [exact S|]. eapply Forall_impl; [|exact A]. intros o (y & -> & Hy). exact Hy.
    + constructor; [exists (z + Z.of_nat seed + 1)%Z; split; [reflexivity | lia]|]. eapply Forall_impl; [|exact A]. intros o (y & -> & Hy). exists y. split; [reflexivity | lia].
    + exists z'. split; [reflexivity|]. split; [lia|]. constructor; [exists (z + Z.of_nat seed + 1)%Z; split; [reflexivity | lia] | exact B].
Qed.

Lemma sorted_app l l' : StronglySorted olt l -> StronglySorted olt l' -> (forall x y, In x l -> In y l' -> olt x y) -> StronglySorted olt (l ++ l').
Proof.
  induction l as [|a l IH]; intros S S' H; cbn; [exact S'|]. inversion S; subst. constructor; [apply IH; auto; intros; apply H; [right|]; assumption|].
  apply Forall_app. split; [assumption|]. apply Forall_forall. intros y Hy. apply H; [left; reflexivity | exact Hy].
Qed.
Lemma seeds_of_cons {G} (steps : list (list (event G))) logs : seeds_of (steps :: logs) = map ev_rs (concat steps) ++ seeds_of logs.
Proof. unfold seeds_of. cbn [concat]. rewrite concat_app, map_app. reflexivity. Qed.

Lemma chain_all_pos grp t logs : forall k z, (0 < z)%Z -> chain_all grp t k (Some z) logs -> StronglySorted olt (seeds_of logs) /\ Forall (above z) (seeds_of logs).
Proof.
  induction logs as [|steps logs IH]; intros k z Hz H; [split; constructor|]. cbn in H. destruct H as (rs' & Hc & H).
  destruct (chain_pos _ _ _ _ Hz Hc) as (S & A & z' & -> & Hle & B). destruct (IH (Datatypes.S k) z' ltac:(lia) H) as (S' & A'). rewrite seeds_of_cons. split.
  - apply sorted_app; auto. intros x y Hx Hy. rewrite Forall_forall in B, A'. destruct (B x Hx) as (u & -> & Hu). destruct (A' y Hy) as (w & -> & Hw). cbn. lia.
  - apply Forall_app. split; [exact A|]. eapply Forall_impl; [|exact A']. intros o (y & -> & Hy). exists y. split; [reflexivity | lia].
Qed.
Lemma chain_all_zero grp t logs : forall k, chain_all grp t k (Some 0%Z) logs -> Forall (eq (Some 0%Z)) (seeds_of logs).
Proof.
  induction logs as [|steps logs IH]; intros k H; [constructor|]. cbn in H. destruct H as (rs' & Hc & H). destruct (chain_zero _ _ _ Hc) as [A ->]. rewrite seeds_of_cons. apply Forall_app. split; [exact A | apply (IH _ H)].
Qed.
Lemma chain_all_none grp t logs : forall k, chain_all grp t k None logs -> Forall (eq None) (seeds_of logs).
Proof.
  induction logs as [|steps logs IH]; intros k H; [constructor|]. cbn in H. destruct H as (rs' & Hc & H). destruct (chain_none _ _ _ Hc) as [A ->]. rewrite seeds_of_cons. apply Forall_app. split; [exact A | apply (IH _ H)].
Qed.

(** ** The purity circuits *)
Lemma letters_length dim d : length (letters dim d) = dim.
Proof. unfold letters. rewrite map_length, seq_length. reflexivity. Qed.
Lemma letters_S dim d : letters (S dim) d = letter (d mod 3) :: letters dim (d / 3).
Proof.
  unfold letters. cbn [seq map]. f_equal; [unfold digit; rewrite Nat.pow_0_r, Nat.div_1_r; reflexivity|].
  rewrite <- seq_shift, map_map. apply map_ext. intros k. unfold digit. rewrite Nat.pow_succ_r', Nat.div_div by (try apply Nat.pow_nonzero; lia). reflexivity.
Qed.
Lemma letters_onto dim : forall l, length l = dim -> (forall c, In c l -> zxy c) -> exists d, d < 3 ^ dim /\ letters dim d = l.
Proof.
  induction dim as [|dim IH]; intros l Hl Hz; [destruct l; [|discriminate]; exists 0; split; [cbn; lia | reflexivity]|].
  destruct l as [|c l]; [discriminate|]. injection Hl as Hl. destruct (IH l Hl (fun x Hx => Hz x (or_intror Hx))) as (d & Hd & E).
  assert (X : exists x, x < 3 /\ letter x = c).
  { destruct (Hz c (or_introl eq_refl)) as [->|[->| ->]]; [exists 0 | exists 1 | exists 2]; split; try lia; reflexivity. }
  destruct X as (x & Hx & <-). exists (3 * d + x). split; [rewrite Nat.pow_succ_r'; lia|]. rewrite letters_S.
  replace ((3 * d + x) mod 3) with x by (rewrite Nat.add_comm, (Nat.mul_comm 3 d), Nat.mod_add by lia; symmetry; apply Nat.mod_small, Hx).
  replace ((3 * d + x) / 3) with d; [rewrite E; reflexivity|]. rewrite Nat.mul_comm, Nat.div_add_l by lia. rewrite (Nat.div_small x 3 Hx). lia.
Qed.

(** ** Names *)
Lemma returned_kind_ok grp a out k css : randomized_benchmarking_seq grp a = Ok out -> returned out k = Some css ->
  kind_ok (length (qubits_of (default_pattern (a_pat _ a)) 0)) k.
Proof.
  intros H Hr. destruct (seq_inv grp a out H) as (m & d & mult & t & inter & os & Hcp & _ & _ & _ & _ & _ & Hk).
  destruct k as [| | | |e]; try exact I. destruct (Hk _ css Hr) as (f & _ & Hp).
  set (o := {| o_std := {| cname := []; cbody := [] |}; o_int := {| cname := []; cbody := [] |}; o_dih := {| cname := []; cbody := [] |};
               o_dihint := {| cname := []; cbody := [] |}; o_pur := repeat {| cname := []; cbody := [] |} (3 ^ d) |}).
  specialize (Hp o (fun _ => repeat_length _ _)). cbn in Hp. destruct (a_pur _ a) eqn:Ep; [|discriminate].
  assert (He : e < 3 ^ d) by (rewrite <- (repeat_length {| cname := []; cbody := [] |} (3 ^ d)); apply nth_error_Some; congruence).
  cbn. destruct (check_pattern_inv _ _ _ _ Hcp) as (_ & Hd & _ & Hne & _ & _ & [Hin _]). cbn [snd] in Hin. apply in_map_iff in Hin as (pat & <- & Hin).
  destruct (default_pattern (a_pat _ a)) as [|p0 ps]; [contradiction|]. cbn [qubits_of nth]. unfold qubits_of. cbn [nth]. rewrite (Hd eq_refl p0 pat (or_introl eq_refl) Hin). exact He.
Qed.

Lemma names_final grp a out k css s cs i c k' css' s' cs' i' c' : randomized_benchmarking_seq grp a = Ok out ->
  returned out k = Some css -> nth_error css s = Some cs -> nth_error cs i = Some c ->
  returned out k' = Some css' -> nth_error css' s' = Some cs' -> nth_error cs' i' = Some c' ->
  cname c = cname c' -> k = k' /\ s = s' /\ i = i'.
Proof.
  intros H Hr Hs Hc Hr' Hs' Hc' E. destruct (run_explained grp a out H) as (t & mult & inter & logs & _ & _ & _ & _ & Ex & _).
  destruct (ex_circuits _ _ _ _ _ _ _ Ex k css Hr) as [_ X]. destruct (X s cs Hs) as (steps & _ & _ & _ & Y). destruct (Y i c Hc) as (r & _ & _ & N & _).
  destruct (ex_circuits _ _ _ _ _ _ _ Ex k' css' Hr') as [_ X']. destruct (X' s' cs' Hs') as (steps' & _ & _ & _ & Y'). destruct (Y' i' c' Hc') as (r' & _ & _ & N' & _).
  rewrite N, N' in E. apply name_inj in E; [destruct E as (-> & -> & E); repeat split; lia | eapply returned_kind_ok; eassumption | eapply returned_kind_ok; eassumption].
Qed.

Lemma names_looked_up grp a out k css s cs i c s' cs' i' c' : randomized_benchmarking_seq grp a = Ok out ->
  returned out k = Some css -> nth_error css s = Some cs -> nth_error cs i = Some c -> nth_error css s' = Some cs' -> nth_error cs' i' = Some c' ->
  undec (last (split "_" (cname c)) []) = Ok (Z.of_nat s + a_off _ a)%Z /\
  cname c' = before (str "_length") (cname c) ++ str "_length_" ++ dec i' ++ str "_seed_" ++ zdec (Z.of_nat s' + a_off _ a).
Proof.
  intros H Hr Hs Hc Hs' Hc'. destruct (run_explained grp a out H) as (t & mult & inter & logs & _ & _ & _ & _ & Ex & _).
  destruct (ex_circuits _ _ _ _ _ _ _ Ex k css Hr) as [_ X]. destruct (X s cs Hs) as (steps & _ & _ & _ & Y). destruct (Y i c Hc) as (r & _ & _ & N & _).
  destruct (X s' cs' Hs') as (steps' & _ & _ & _ & Y'). destruct (Y' i' c' Hc') as (r' & _ & _ & N' & _).
  rewrite N, N'. split; [apply name_seed|]. rewrite name_before, expected_name_prefix. reflexivity.
Qed.

(** ** CNOT-dihedral sequences *)
Lemma dihedral_final {det_odd draw clifford} a out k css s cs i c N :
  let grp := fun t => match t with TClifford => clifford | TDihedral => dihedral_group det_odd draw end in
  decides_invertible det_odd ->
  (forall pat rs j, In pat (default_pattern (a_pat grp a)) -> exists e, draw (length pat) rs j = Ok e /\ wf_cdi (length pat) e /\ w0 (dpoly e) = 0%Z) ->
  rb_group_of (a_group grp a) = Ok TDihedral -> (forall pat, In pat (default_pattern (a_pat grp a)) -> 1 <= length pat <= 8) ->
  (forall l p pat ie, a_inter grp a = Some l -> nth_error (default_pattern (a_pat grp a)) p = Some pat -> nth_error l p = Some ie ->
     exists e, handle_one grp TDihedral ie = Ok e /\ wf_cdi (length pat) e /\ w0 (dpoly e) = 0%Z) ->
  randomized_benchmarking_seq grp a = Ok out -> returned out k = Some css -> (forall d, k <> KPur d) ->
  nth_error css s = Some cs -> nth_error cs i = Some c ->
  (forall q, In q (concat (default_pattern (a_pat grp a))) -> q < N) ->
  exists z, z <> cy0 /\ forall x, length x = N -> QSem.run (map (op_of gate_mat) (gates (cbody c))) (ground N) x = cymul z (ground N x).
Proof.
  intros grp Hdet Hdraw Ht Hp8 Hint H Hr Hk Hs Hc HN.
  cut (contract gate_mat grp a TDihedral in_use).
  { intros C. exact (ground_final gate_mat grp a out TDihedral in_use k css s cs i c N H Ht C Hr Hk Hs Hc HN). }
  constructor.
  - intros pat Hin. apply (dihedral_lawful det_odd Hdet draw), Hp8, Hin.
  - intros pat Hin rs j. apply (Hdraw pat rs j Hin).
  - intros ies p pat ie Hi Hpat Hie. unfold handle_interleaved_elem in Hi. destruct (a_inter grp a) as [l|] eqn:El; [|discriminate]. inv_bind Hi. injection Hi as ->.
    assert (Hlp : exists x, nth_error l p = Some x /\ handle_one grp TDihedral x = Ok ie).
    { clear - E Hie. apply mapM_inv in E. revert p Hie. induction E as [|x y l l' Hxy E IH]; intros [|p] Hie; try discriminate; [exists x; injection Hie as <-; auto | apply IH, Hie]. }
    destruct Hlp as (x & Hx & Ex). destruct (Hint l p pat x eq_refl Hpat Hx) as (e & Ee & W & Z). rewrite Ex in Ee. injection Ee as ->. split; assumption.
  - intros _. apply h_twice.
Qed.

(** ** Arguments *)
Lemma check_pattern_values pattern pur inter :
  match check_pattern pattern pur inter with
  | Ok (flat, m, d) => flat = concat pattern /\ is_max m flat /\ is_max d (map (@length nat) pattern)
  | Err e => e = ValueError
  end.
Proof.
  destruct (check_pattern pattern pur inter) as [[[f m] d]|e] eqn:E.
  - destruct (check_pattern_inv _ _ _ _ E) as (_ & _ & _ & _ & A & B & C). cbn in A, B, C. subst f. auto.
  - unfold check_pattern in E. destruct (has_duplicate _); [congruence|]. destruct (_ && _); [congruence|]. destruct (match inter with Some _ => _ | None => _ end); [congruence|].
    unfold np_max in E. destruct (concat pattern); [cbn in E; congruence|]. cbn [bind] in E. destruct (map (@length nat) pattern); [cbn in E; congruence | discriminate].
Qed.

Lemma multiplier_sequence_iff l n pur m :
  handle_length_multiplier (MSeq l) n pur = Ok m <->
  m = l /\ pur = false /\ length l = n /\ l <> [] /\ forall x, In x l -> exists z, x = NInt z /\ (1 <= z)%Z.
Proof.
  unfold handle_length_multiplier. split.
  - destruct pur; [discriminate|]. destruct (Nat.eqb_spec (length l) n) as [El|]; [|discriminate]. cbn [negb].
    destruct (forallb is_int l && (0 <? length l)) eqn:E; [|discriminate]. cbn [negb]. destruct (existsb _ l) eqn:Ex; [discriminate|]. intros [= <-].
    apply andb_true_iff in E as [E1 E2]. split; [reflexivity|]. split; [reflexivity|]. split; [exact El|]. split; [intros ->; discriminate|]. intros x Hx.
    rewrite forallb_forall in E1. specialize (E1 x Hx). destruct x as [z|]; [|discriminate]. exists z. split; [reflexivity|].
    assert (X : negb (Qle_bool 1 (num_q (NInt z))) = false).
    { destruct (negb _) eqn:Y; [|reflexivity]. exfalso. assert (existsb (fun x => negb (Qle_bool 1 (num_q x))) l = true) by (apply existsb_exists; eauto). congruence. }
    apply negb_false_iff, Qle_bool_iff in X. cbn in X. unfold Qle in X. cbn in X. lia.
  - intros (-> & -> & <- & Hne & Hz). rewrite Nat.eqb_refl. cbn [negb].
    replace (forallb is_int l) with true by (symmetry; apply forallb_forall; intros x Hx; destruct (Hz x Hx) as (z & -> & _); reflexivity).
    replace (0 <? length l) with true by (destruct l; [contradiction | reflexivity]). cbn [andb negb].
    replace (existsb _ l) with false; [reflexivity|]. symmetry. destruct (existsb _ l) eqn:Ex; [|reflexivity]. exfalso. apply existsb_exists in Ex as (x & Hx & Y).
    destruct (Hz x Hx) as (z & -> & Hzz). apply negb_true_iff in Y. assert (Qle_bool 1 (num_q (NInt z)) = true) by (apply Qle_bool_iff; cbn; unfold Qle; cbn; lia). congruence.
Qed.

Lemma mem_In_iff (s : pystr) l : mem s l = true <-> In s l.
Proof.
  unfold mem. rewrite existsb_exists. split.
  - intros (x & Hx & E). destruct (eqb_spec s x); [subst; exact Hx | discriminate].
  - intros H. exists s. split; [exact H|]. destruct (eqb_spec s s); [reflexivity | contradiction].
Qed.
Lemma group_names_iff g :
  match rb_group_of g with
  | Ok TClifford => g = None \/ exists s, g = Some s /\ In s (map str ["0"; "Clifford"; "clifford"]%string)
  | Ok TDihedral => exists s, g = Some s /\ In s (map str ["1"; "Non-Clifford"; "CNOT-Dihedral"; "NonCliffordCNOTDihedral"]%string)
  | Err e => e = QiskitError /\ exists s, g = Some s /\ ~ In s (map str ["0"; "Clifford"; "clifford"; "1"; "Non-Clifford"; "CNOT-Dihedral"; "NonCliffordCNOTDihedral"]%string)
  end.
Proof.
  destruct g as [s|]; cbn [rb_group_of]; [|left; reflexivity].
  destruct (mem s (map str ["0"; "Clifford"; "clifford"]%string)) eqn:E1; [right; exists s; split; [reflexivity | apply mem_In_iff, E1]|].
  destruct (mem s (map str ["1"; "Non-Clifford"; "NonCliffordCNOTDihedral"; "CNOT-Dihedral"]%string)) eqn:E2.
  - exists s. split; [reflexivity|]. apply mem_In_iff in E2. cbn [map] in *. cbn [In] in *. tauto.
  - split; [reflexivity|]. exists s. split; [reflexivity|]. intros H.
    assert (N1 : ~ In s (map str ["0"; "Clifford"; "clifford"]%string)) by (intros X; apply mem_In_iff in X; congruence).
    assert (N2 : ~ In s (map str ["1"; "Non-Clifford"; "NonCliffordCNOTDihedral"; "CNOT-Dihedral"]%string)) by (intros X; apply mem_In_iff in X; congruence).
    cbn [map] in *. cbn [In] in *. tauto.
Qed.

(** ** Purity *)
Lemma purity_circuits grp a out : randomized_benchmarking_seq grp a = Ok out -> a_pur _ a = true ->
  let dim := length (qubits_of (default_pattern (a_pat _ a)) 0) in
  (forall d, (exists css, returned out (KPur d) = Some css) <-> d < 3 ^ dim) /\
  exists t mult inter logs, explained grp a out t mult inter logs /\
  forall d css s cs i c, returned out (KPur d) = Some css -> nth_error css s = Some cs -> nth_error cs i = Some c ->
    exists prefix suffix body, cname c = prefix ++ letters dim d ++ suffix /\
      cbody c = body ++ rotations (default_pattern (a_pat _ a)) dim d ++ measurements (concat (default_pattern (a_pat _ a))) /\
      exists steps r, nth_error logs s = Some steps /\ nth_error (default_lv (a_lv _ a)) i = Some r /\
        body = expected_body (grp t) (default_pattern (a_pat _ a)) inter (a_align _ a) KStd (firstn r steps).
Proof.
  intros H Hp dim. split.
  - intros d. split; [intros [css Hc]; apply (returned_kind_ok grp a out (KPur d) css H Hc)|]. intros Hd.
    pose proof H as H'. unfold randomized_benchmarking_seq in H'. inv_bind H'. destruct v as [[q m] md]. inv_bind H'. inv_bind H'. inv_bind H'. inv_bind H'. rewrite Hp in H'. injection H' as <-.
    unfold returned. destruct (Nat.ltb_spec d (3 ^ md)) as [|Hge]; [eauto|]. exfalso.
    destruct (check_pattern_inv _ _ _ _ E) as (_ & Hdim & _ & _ & _ & _ & [Hin _]). cbn [snd] in Hin. apply in_map_iff in Hin as (pat & <- & Hin). unfold dim, qubits_of in Hd.
    destruct (default_pattern (a_pat _ a)) as [|p0 ps]; [contradiction|]. cbn [nth] in Hd. rewrite (Hdim Hp p0 pat (or_introl eq_refl) Hin) in Hd. lia.
  - destruct (run_explained grp a out H) as (t & mult & inter & logs & _ & _ & _ & _ & Ex & _). exists t, mult, inter, logs. split; [exact Ex|].
    intros d css s cs i c Hr Hs Hc. destruct (ex_circuits _ _ _ _ _ _ _ Ex _ css Hr) as [_ X]. destruct (X s cs Hs) as (steps & Hl & _ & _ & Y). destruct (Y i c Hc) as (r & Hr' & _ & N & B).
    unfold measured in B. cbn [expected_body] in B.
    exists ((match t with TClifford => str "rb" | TDihedral => str "rb_cnotdihedral" end) ++ str "_purity_"), (str "_length_" ++ dec i ++ str "_seed_" ++ zdec (Z.of_nat s + a_off _ a)).
    eexists. split; [rewrite N; unfold expected_name; rewrite <- !app_assoc; reflexivity|]. split; [rewrite B, <- app_assoc; reflexivity|].
    exists steps, r. split; [exact Hl|]. split; [exact Hr' | reflexivity].
Qed.

Section OneQubit.
Local Notation op_of := (op_of gate_mat).
Lemma apply1 g p c : gqubits g = [0] -> apply (op_of g) p [c] =
  cyadd (cymul (gate_mat (gname g) (gparams g) [c] [false]) (p [false])) (cymul (gate_mat (gname g) (gparams g) [c] [true]) (p [true])).
Proof.
  intros Hq. unfold apply. cbn [o_mat o_qs RBSeqSpec.op_of]. rewrite Hq. cbn [length cube map app].
  change (wr [0] [false] [c]) with [false]. change (wr [0] [true] [c]) with [true]. change (rd [0] [c]) with [c].
  unfold fsum. cbn [fold_right]. change (@fmul cyc _) with cymul. change (@fadd cyc _) with cyadd. change (@f0 cyc _) with cy0. ring.
Qed.
Definition prod2 (g h : ginstr) (c b : bool) : cyc :=
  cyadd (cymul (gate_mat (gname h) (gparams h) [c] [false]) (gate_mat (gname g) (gparams g) [false] [b]))
        (cymul (gate_mat (gname h) (gparams h) [c] [true]) (gate_mat (gname g) (gparams g) [true] [b])).
Lemma run2 g h p c : gqubits g = [0] -> gqubits h = [0] -> QSem.run (map op_of [g; h]) p [c] =
  cyadd (cymul (prod2 g h c false) (p [false])) (cymul (prod2 g h c true) (p [true])).
Proof. intros Hg Hh. cbn [map QSem.run]. rewrite (apply1 h) by exact Hh. rewrite !(apply1 g) by exact Hg. unfold prod2. ring. Qed.

Lemma same_by (k : cyc) g h g' h' : k <> cy0 -> gqubits g = [0] -> gqubits h = [0] -> gqubits g' = [0] -> gqubits h' = [0] ->
  (forall c b, prod2 g h c b = cymul k (prod2 g' h' c b)) -> same_action gate_mat 1 [g; h] [g'; h'].
Proof.
  intros Hk H1 H2 H3 H4 E. exists k. split; [exact Hk|]. intros psi x Hx. destruct x as [|c [|]]; try discriminate.
  rewrite !run2 by assumption. rewrite !E. change (@fmul cyc _) with cymul. ring.
Qed.
Lemma not_same_by c b c' b' g h g' h' : gqubits g = [0] -> gqubits h = [0] -> gqubits g' = [0] -> gqubits h' = [0] ->
  cyc_eqb (cymul (prod2 g h c b) (prod2 g' h' c' b')) (cymul (prod2 g h c' b') (prod2 g' h' c b)) = false -> ~ same_action gate_mat 1 [g; h] [g'; h'].
Proof.
  intros H1 H2 H3 H4 E (k & _ & Hs).
  assert (X : forall c b, prod2 g h c b = cymul k (prod2 g' h' c b)).
  { intros c0 b0. specialize (Hs (fun x => if eqb x [b0] then cy1 else cy0) [c0] eq_refl). rewrite !run2 in Hs by assumption. change (@fmul cyc _) with cymul in Hs.
    destruct b0; cbn [eqb list_eqb] in Hs; (change (eqb [false] [false]) with true in Hs || change (eqb [true] [true]) with true in Hs);
      (change (eqb [true] [false]) with false in Hs || change (eqb [false] [true]) with false in Hs); cbv iota in Hs.
    - replace (prod2 g h c0 true) with (cyadd (cymul (prod2 g h c0 false) cy0) (cymul (prod2 g h c0 true) cy1)) by ring. rewrite Hs. ring.
    - replace (prod2 g h c0 false) with (cyadd (cymul (prod2 g h c0 false) cy1) (cymul (prod2 g h c0 true) cy0)) by ring. rewrite Hs. ring. }
  destruct (cyc_eqb_ok (cymul (prod2 g h c b) (prod2 g' h' c' b')) (cymul (prod2 g h c' b') (prod2 g' h' c b))) as [|N]; [discriminate|].
  apply N. rewrite !X. ring.
Qed.
End OneQubit.

Lemma rotations_measure :
  same_action gate_mat 1 [g1 "rx" [2%Q]; g1 "z" []] [g1 "y" []; g1 "rx" [2%Q]] /\
  same_action gate_mat 1 [g1 "ry" [2%Q]; g1 "z" []] [g1 "x" []; g1 "ry" [2%Q]].
Proof.
  split.
  - apply (same_by cy1); try reflexivity; [discriminate|]. intros [] []; cyc_compute.
  - apply (same_by (omega 4)); try reflexivity; [apply omega_neq_0|]. intros [] []; cyc_compute.
Qed.
Lemma letters_swapped :
  ~ same_action gate_mat 1 [g1 "rx" [2%Q]; g1 "z" []] [g1 "x" []; g1 "rx" [2%Q]] /\
  ~ same_action gate_mat 1 [g1 "ry" [2%Q]; g1 "z" []] [g1 "y" []; g1 "ry" [2%Q]].
Proof.
  split; apply (not_same_by false false false true); try reflexivity; vm_compute; reflexivity.
Qed.
