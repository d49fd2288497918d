(** Processing of counts and decoder statistics. *)
From Verif Require Import Base BasisSem RepCodeModel RepCodeSpec RepCodeCircProofs RepCodeFaultProofs RepCodeStringProofs RepCodeGraphProofs RepCodeMatchProofs.

Lemma dset_new {V} (acc : dict pystr V) k v : ~ In k (map fst acc) -> dset acc k v = acc ++ [(k, v)].
Proof.
  induction acc as [|[k' v'] acc IH]; intros Ht; [reflexivity|]. cbn [map fst In] in Ht. cbn [dset app].
  destruct (eqb_spec k k') as [->|]; [tauto|]. rewrite IH by tauto. reflexivity.
Qed.

(** * C13 *)
Lemma trivial_dec d T b f : (forall n, In n (allnodes d T) -> f n = b && is_logical n) ->
  dec_string d T f = trivial_string d T b.
Proof.
  intros Hf. unfold dec_string, trivial_string.
  rewrite !Hf by (apply allnodes_In; auto). cbn [is_logical L0 L1]. rewrite Bool.andb_true_r.
  cbn [app]. do 4 f_equal.
  assert (Hrow : forall t, t <= T -> row d f t = repeat "0"%char (d - 1)).
  { intros t Ht. unfold row. rewrite <- (seq_length (d - 1) 0) at 2.
    assert (H : forall l, (forall e, In e l -> e < d - 1) -> map (fun e => bit_char (f [1; t; e])) l = repeat "0"%char (length l)).
    { induction l as [|e l IH]; intros Hl; [reflexivity|]. cbn [map length repeat]. rewrite IH by (intros x Hx; apply Hl; right; exact Hx).
      rewrite Hf; [cbn [is_logical]; rewrite Bool.andb_false_r; reflexivity|]. apply allnodes_In. right; right. exists t, e.
      repeat split; [exact Ht | apply Hl; left; reflexivity]. }
    apply H. intros e He. apply in_seq in He. lia. }
  assert (H : forall k i, i + k <= T + 1 -> 1 <= k ->
     sp :: join [sp] (map (row d f) (seq i k)) = concat (repeat (sp :: repeat "0"%char (d - 1)) k)).
  { induction k as [|k IH]; intros i Hle Hk; [lia|]. cbn [seq map repeat concat app]. rewrite Hrow by lia. f_equal.
    destruct k as [|k].
    - cbn [seq map join repeat concat]. rewrite app_nil_r. reflexivity.
    - rewrite <- (IH (S i)) by lia. cbn [seq map join]. reflexivity. }
  apply H; lia.
Qed.

Lemma C13_lemma d T b : 2 <= d -> 1 <= T ->
  let c := repetition_code d T in
  process_string d T (run_string (rc_cregs c) (rc_circ c b)) = Ok (trivial_string d T b).
Proof.
  intros Hd HT c. unfold c. rewrite run_string_out by exact HT. rewrite process_out_string by assumption. f_equal.
  apply trivial_dec. intros n Hn. apply noiseless_lit; assumption.
Qed.

(** * Processing loses no shots *)
Lemma reg_strings_ext sizes : forall o a b, (forall i, o <= i -> a i = b i) -> reg_strings o sizes a = reg_strings o sizes b.
Proof.
  induction sizes as [|n sizes IH]; intros o a b H; [reflexivity|]. cbn [reg_strings]. f_equal.
  - f_equal. apply map_ext. intros i. rewrite H by lia. reflexivity.
  - apply IH. intros i Hi. apply H. lia.
Qed.

Lemma bits_of_string n s : bitstring n s -> exists g, map (fun i => bit_char (g i)) (seq 0 n) = s.
Proof.
  intros [Hl Hb]. exists (fun i => eqb (nth i s "0"%char) "1"%char). subst n.
  transitivity (map (fun i => nth i s "0"%char) (seq 0 (length s))).
  - apply map_ext_in. intros i Hi. apply in_seq in Hi. destruct (Hb (nth i s "0"%char)) as [-> | ->]; [apply nth_In; lia | |]; reflexivity.
  - clear. induction s as [|c s IH]; [reflexivity|]. cbn [length seq map nth]. f_equal. rewrite <- seq_shift, map_map. exact IH.
Qed.

Lemma reg_strings_surj sizes strs : Forall2 bitstring sizes strs -> forall o, exists bits, reg_strings o sizes bits = strs.
Proof.
  induction 1 as [|n s sizes strs Hs Hf IH]; intros o; [exists (fun _ => false); reflexivity|].
  destruct (IH (o + n)) as (bits & Hbits).
  destruct (bits_of_string n (rev s)) as (g & Hg).
  { destruct Hs as [Hl Hb]. split; [rewrite rev_length; exact Hl|]. intros c Hc. apply in_rev in Hc. apply Hb, Hc. }
  exists (fun i => if i <? o + n then g (i - o) else bits i). cbn [reg_strings]. f_equal.
  - rewrite <- (rev_involutive s), <- Hg. f_equal. apply map_ext_in. intros i Hi. apply in_seq in Hi.
    destruct (Nat.ltb_spec (o + i) (o + n)); [|lia]. do 2 f_equal. lia.
  - rewrite <- Hbits. apply reg_strings_ext. intros i Hi. destruct (Nat.ltb_spec i (o + n)); [lia | reflexivity].
Qed.

Lemma code_key_bits d T s : code_key d T s -> exists bits, s = out_string d T bits.
Proof.
  intros (code & rounds & Hc & Hl & Hr & ->).
  destruct (reg_strings_surj (repeat (d - 1) T ++ [d]) (rev rounds ++ [code])) with (o := 0) as (bits & Hb).
  - apply Forall2_app; [|constructor; [exact Hc | constructor]]. subst T. rewrite <- rev_length.
    assert (Hr' : Forall (bitstring (d - 1)) (rev rounds)) by (apply Forall_rev, Hr). clear -Hr'.
    induction Hr' as [|s l Hs Hl IH]; cbn; constructor; assumption.
  - exists bits. unfold out_string. rewrite Hb, rev_app_distr, rev_involutive. reflexivity.
Qed.

Lemma dec_string_inj d T f g : 2 <= d -> dec_string d T f = dec_string d T g -> forall n, In n (allnodes d T) -> f n = g n.
Proof.
  intros Hd E n Hn. apply (f_equal string2nodes) in E. rewrite !string2nodes_dec in E by exact Hd.
  apply Bool.eq_iff_eq_true. split; intros H.
  - assert (Hi : In n (filter f (allnodes d T))) by (apply filter_In; auto). rewrite E in Hi. apply filter_In in Hi. tauto.
  - assert (Hi : In n (filter g (allnodes d T))) by (apply filter_In; auto). rewrite <- E in Hi. apply filter_In in Hi. tauto.
Qed.

Lemma lit_determines d T bits : 2 <= d -> (forall n, In n (allnodes d T) -> lit d T bits n = false) ->
  (forall r j, r < T -> j < d - 1 -> bits (r * (d - 1) + j) = false) /\ (forall j, j < d -> codebit d T bits j = false).
Proof.
  intros Hd Hz.
  assert (Hs : forall r, r <= T -> forall j, j < d - 1 -> srd d T bits r j = false).
  { induction r as [|r IH]; intros Hr j Hj.
    - specialize (Hz [1; 0; d - 2 - j]). cbn [lit Nat.eqb] in Hz. rewrite xorb_false_r in Hz.
      replace (d - 2 - (d - 2 - j)) with j in Hz by lia. apply Hz. apply allnodes_In. right; right. eexists _, _. split; [reflexivity|]. lia.
    - specialize (Hz [1; S r; d - 2 - j]). cbn [lit Nat.eqb] in Hz.
      replace (d - 2 - (d - 2 - j)) with j in Hz by lia. replace (S r - 1) with r in Hz by lia. rewrite IH, xorb_false_r in Hz by lia.
      apply Hz. apply allnodes_In. right; right. eexists _, _. split; [reflexivity|]. lia. }
  split.
  - intros r j Hr Hj. specialize (Hs r ltac:(lia) j Hj). unfold srd in Hs. destruct (Nat.ltb_spec r T); [exact Hs | lia].
  - assert (Hsyn : forall j, j < d - 1 -> syn (codebit d T bits) j = false).
    { intros j Hj. specialize (Hs T ltac:(lia) j Hj). unfold srd in Hs. rewrite Nat.ltb_irrefl in Hs. exact Hs. }
    assert (H0 : codebit d T bits 0 = false) by (apply (Hz L1), allnodes_In; auto).
    induction j as [|j IH]; intros Hj; [exact H0|].
    specialize (Hsyn j ltac:(lia)). unfold syn in Hsyn. rewrite IH, xorb_false_l in Hsyn by lia. rewrite Nat.add_1_r in Hsyn. exact Hsyn.
Qed.

Lemma reg_strings_in_range sizes : forall o a b, (forall i, o <= i < o + list_sum sizes -> a i = b i) -> reg_strings o sizes a = reg_strings o sizes b.
Proof.
  induction sizes as [|n sizes IH]; intros o a b H; [reflexivity|]. cbn [reg_strings]. change (list_sum (n :: sizes)) with (n + list_sum sizes) in H. f_equal.
  - f_equal. apply map_ext_in. intros i Hi. apply in_seq in Hi. rewrite H by lia. reflexivity.
  - apply IH. intros i Hi. apply H. lia.
Qed.

Lemma process_injective d T s s' t : 2 <= d -> 1 <= T -> code_key d T s -> code_key d T s' ->
  process_string d T s = Ok t -> process_string d T s' = Ok t -> s = s'.
Proof.
  intros Hd HT Hs Hs' H H'. destruct (code_key_bits _ _ _ Hs) as (a & ->), (code_key_bits _ _ _ Hs') as (b & ->).
  rewrite process_out_string in H, H' by assumption. injection H as H. injection H' as H'. rewrite <- H in H'.
  pose proof (dec_string_inj _ _ _ _ Hd H') as Heq.
  destruct (lit_determines d T (fun i => xorb (a i) (b i)) Hd) as [H1 H2].
  { intros n Hn. rewrite lit_xor, (Heq n Hn), xorb_nilpotent. reflexivity. }
  unfold out_string. do 2 f_equal. apply reg_strings_in_range. intros i Hi.
  assert (Hsz : list_sum (repeat (d - 1) T ++ [d]) = T * (d - 1) + d).
  { rewrite list_sum_app. cbn [list_sum fold_right]. rewrite Nat.add_0_r. f_equal. clear. induction T as [|T IH]; [reflexivity|]. change (d - 1 + list_sum (repeat (d - 1) T) = d - 1 + T * (d - 1)). lia. }
  assert (Hx : xorb (a i) (b i) = false).
  { destruct (Nat.lt_ge_cases i (T * (d - 1))) as [Hlt|Hge].
    - rewrite (Nat.div_mod i (d - 1)) by lia. rewrite (Nat.mul_comm (d - 1)). apply H1; [apply Nat.div_lt_upper_bound; lia | apply Nat.mod_upper_bound; lia].
    - specialize (H2 (i - T * (d - 1))). unfold codebit in H2. replace (T * (d - 1) + (i - T * (d - 1))) with i in H2 by lia. apply H2. lia. }
  destruct (a i), (b i); reflexivity || discriminate.
Qed.

Lemma C55_lemma d T raw : 2 <= d -> 1 <= T -> NoDup (map fst raw) -> (forall kv, In kv raw -> code_key d T (fst kv)) ->
  exists r, process_counts d T raw = Ok r /\ NoDup (map fst r) /\
    Forall2 (fun kv kv' => process_string d T (fst kv) = Ok (fst kv') /\ snd kv' = snd kv) raw r.
Proof.
  intros Hd HT Hnd Hk. unfold process_counts.
  assert (H : forall raw acc : dict pystr Z, NoDup (map fst raw) -> (forall kv, In kv raw -> code_key d T (fst kv)) -> NoDup (map fst acc) ->
     (forall kv t, In kv raw -> process_string d T (fst kv) = Ok t -> ~ In t (map fst acc)) ->
     exists r, foldM (fun acc kv => do s <- process_string d T (fst kv); Ok (dset acc s (snd kv))) raw acc = Ok (acc ++ r) /\
       NoDup (map fst (acc ++ r)) /\
       Forall2 (fun kv kv' => process_string d T (fst kv) = Ok (fst kv') /\ snd kv' = snd kv) raw r).
  { clear raw Hnd Hk. induction raw as [|[k v] raw IH]; intros acc Hnd Hk Hacc Hdis.
    - exists []. rewrite app_nil_r. repeat split; [exact Hacc | constructor].
    - cbn [foldM fst snd]. destruct (code_key_bits d T k (Hk (k, v) (or_introl eq_refl))) as (bits & Ebits).
      pose proof (process_out_string d T bits Hd HT) as Hp. rewrite <- Ebits in Hp. set (t := dec_string d T (lit d T bits)) in *.
      rewrite Hp. cbn [bind].
      assert (Ht : ~ In t (map fst acc)) by (apply (Hdis (k, v)); [left; reflexivity | exact Hp]).
      assert (Eset : dset acc t v = acc ++ [(t, v)]).
      { apply dset_new, Ht. }
      rewrite Eset. cbn [map fst] in Hnd. inversion Hnd as [|? ? Hk' Hnd']; subst.
      destruct (IH (acc ++ [(t, v)])) as (r & Hr & Hn & Hf); [assumption | intros kv Hkv; apply Hk; right; exact Hkv | | |].
      + rewrite map_app. apply NoDup_app_intro; [exact Hacc | repeat constructor; intros [] |].
        intros x Hx [<-|[]]. contradiction.
      + intros kv t' Hkv Ht'. rewrite map_app, in_app_iff. intros [Hi|[<-|[]]].
        * apply (Hdis kv t'); [right; exact Hkv | exact Ht' | exact Hi].
        * cbn [fst] in Ht'. assert (fst kv = out_string d T bits).
          { eapply process_injective; [exact Hd | exact HT | apply Hk; right; exact Hkv | apply (Hk (out_string d T bits, v)); left; reflexivity | exact Ht' | exact Hp]. }
          apply Hk'. rewrite <- H. apply in_map, Hkv.
      + exists ((t, v) :: r). rewrite <- app_assoc in Hr, Hn. cbn [app] in Hr, Hn. split; [exact Hr|]. split; [exact Hn|].
        constructor; [split; [exact Hp | reflexivity] | exact Hf]. }
  destruct (H raw [] Hnd Hk) as (r & Hr & Hn & Hf); [constructor | intros kv t _ _ [] |].
  exists r. auto.
Qed.

(** * C16 *)
Lemma shots_of_cons k v d P : shots_of ((k, v) :: d) P = ((if P k then v else 0) + shots_of d P)%Z.
Proof. reflexivity. Qed.
Lemma shots_of_app d d' P : shots_of (d ++ d') P = (shots_of d P + shots_of d' P)%Z.
Proof. unfold shots_of. rewrite map_app, zsum_app. reflexivity. Qed.
Lemma shots_of_ext d P P' : (forall k, In k (map fst d) -> P k = P' k) -> shots_of d P = shots_of d P'.
Proof.
  intros H. unfold shots_of. apply zsum_map_ext. intros kv Hkv. rewrite H by (apply in_map, Hkv). reflexivity.
Qed.

Lemma shots_of_add (d : dict pystr Z) s v P :
  shots_of (dset d s (dget0 d s + v)%Z) P = (shots_of d P + (if P s then v else 0))%Z.
Proof.
  induction d as [|[k x] d IH].
  - cbn. destruct (P s); lia.
  - unfold dget0 in *. cbn [dset dget]. destruct (eqb_spec s k) as [->|Hne].
    + rewrite !shots_of_cons. destruct (P k); lia.
    + rewrite !shots_of_cons, IH. lia.
Qed.

Lemma tally_closed log d : (forall k, In k (map fst d) -> k <> []) ->
  tally log d = Ok (shots_of d (differs log), shots_of d (fun _ => true)).
Proof.
  intros Hne. unfold tally.
  assert (H : forall d i s, (forall k, In k (map fst d) -> k <> []) ->
    foldM (fun '(incorrect, shots) kv =>
      do wrong <- first_differs (fst kv) log;
      Ok ((if wrong then incorrect + snd kv else incorrect)%Z, (shots + snd kv)%Z)) d (i, s)
    = Ok ((i + shots_of d (differs log))%Z, (s + shots_of d (fun _ => true))%Z)).
  { clear d Hne. induction d as [|[k v] d IH]; intros i s Hne.
    - cbn. rewrite !Z.add_0_r. reflexivity.
    - cbn [foldM fst snd]. destruct k as [|c k]; [exfalso; apply (Hne []); [left; reflexivity | reflexivity]|].
      unfold first_differs at 1. cbn [index_e nth_error bind].
      rewrite IH by (intros x Hx; apply Hne; right; exact Hx). rewrite !shots_of_cons. unfold differs at 2. cbn [firstn].
      destruct (negb (eqb [c] log)); do 2 f_equal; lia. }
  rewrite H by exact Hne. reflexivity.
Qed.

(** The common loop: one entry per logical value. *)
Lemma per_log_closed {A B} (h : pystr -> A -> result B) results :
  NoDup (map fst results) ->
  foldM (fun acc '(log, c) => do p <- h log c; Ok (dset acc log p)) results []
  = mapM (fun lc => do p <- h (fst lc) (snd lc); Ok (fst lc, p)) results.
Proof.
  intros Hnd.
  assert (H : forall results acc, NoDup (map fst results) -> (forall k, In k (map fst results) -> ~ In k (map fst acc)) ->
    foldM (fun acc '(log, c) => do p <- h log c; Ok (dset acc log p)) results acc
    = do ps <- mapM (fun lc => do p <- h (fst lc) (snd lc); Ok (fst lc, p)) results; Ok (acc ++ ps)).
  { clear results Hnd. induction results as [|[k c] results IH]; intros acc Hnd Hdis.
    - cbn. rewrite app_nil_r. reflexivity.
    - cbn [foldM mapM fst snd]. destruct (h k c) as [p|e]; [|reflexivity]. cbn [bind].
      inversion Hnd as [|? ? Hk Hnd']; subst.
      assert (Eset : dset acc k p = acc ++ [(k, p)]).
      { apply dset_new, Hdis; left; reflexivity. }
      rewrite Eset, IH.
      + destruct (mapM _ results) as [ps|e]; [|reflexivity]. cbn [bind]. rewrite <- app_assoc. reflexivity.
      + exact Hnd'.
      + intros x Hx. rewrite map_app, in_app_iff. intros [Hi|[<-|[]]]; [apply (Hdis x); [right; exact Hx | exact Hi] | contradiction]. }
  rewrite H; [destruct (mapM _ _); reflexivity | exact Hnd | intros k _ []].
Qed.

Lemma mapM_ext {A B} (f g : A -> result B) l : (forall a, In a l -> f a = g a) -> mapM f l = mapM g l.
Proof.
  induction l as [|a l IH]; intros H; [reflexivity|]. cbn [mapM]. rewrite H by (left; reflexivity).
  destruct (g a); [|reflexivity]. cbn [bind]. rewrite IH by (intros x Hx; apply H; right; exact Hx). reflexivity.
Qed.

Lemma get_logical_prob_lemma decode g results :
  NoDup (map fst results) ->
  (forall log cnts k, In (log, cnts) results -> In k (map fst cnts) -> decode k = Ok (g k) /\ g k <> []) ->
  get_logical_prob (Some decode) results
  = mapM (fun lc => do p <- freq (shots_of (snd lc) (fun s => differs (fst lc) (g s))) (shots_of (snd lc) (fun _ => true)); Ok (fst lc, p)) results.
Proof.
  intros Hnd Hg. unfold get_logical_prob.
  transitivity (foldM (fun acc '(log, cnts) => do p <- (do corrected <- foldM (fun d kv => do s <- decode (fst kv); Ok (dset d s (dget0 d s + snd kv)%Z)) cnts [];
      do (i, s) <- tally log corrected; ratio i s); Ok (dset acc log p)) results []).
  { generalize (@nil (pystr * (Z * Z))). clear Hnd Hg. induction results as [|[log cnts] results IH]; intros acc; [reflexivity|].
    cbn [foldM]. match goal with |- bind (bind ?t _) _ = _ => destruct t as [c|e]; [|reflexivity] end. cbn [bind]. destruct (tally log c) as [[i s]|e]; [|reflexivity]. cbn [bind].
    destruct (ratio i s); [|reflexivity]. cbn [bind]. apply IH. }
  rewrite (per_log_closed (fun log cnts => do corrected <- foldM (fun d kv => do s <- decode (fst kv); Ok (dset d s (dget0 d s + snd kv)%Z)) cnts [];
      do (i, s) <- tally log corrected; ratio i s)) by exact Hnd.
  apply mapM_ext. intros [log cnts] Hin. cbn [fst snd].
  assert (Hd : forall cnts acc, (forall k, In k (map fst cnts) -> decode k = Ok (g k) /\ g k <> []) -> (forall k, In k (map fst acc) -> k <> []) ->
     exists c, foldM (fun d kv => do s <- decode (fst kv); Ok (dset d s (dget0 d s + snd kv)%Z)) cnts acc = Ok c /\
       (forall k, In k (map fst c) -> k <> []) /\ forall P, shots_of c P = (shots_of acc P + shots_of cnts (fun s => P (g s)))%Z).
  { clear. induction cnts as [|[k v] cnts IH]; intros acc Hk Hacc.
    - exists acc. cbn. repeat split; [exact Hacc|]. intros P. lia.
    - cbn [foldM fst snd]. destruct (Hk k (or_introl eq_refl)) as [-> Hne]. cbn [bind].
      destruct (IH (dset acc (g k) (dget0 acc (g k) + v)%Z)) as (c & Hc & Hcn & Hs).
      + intros x Hx. apply Hk. right; exact Hx.
      + intros x Hx. apply In_dkeys_dset in Hx as [->|Hx]; [exact Hne | apply Hacc, Hx].
      + exists c. split; [exact Hc|]. split; [exact Hcn|]. intros P. rewrite Hs, shots_of_add, shots_of_cons. lia. }
  destruct (Hd cnts []) as (c & Hc & Hcn & Hs); [intros k Hk; apply (Hg log cnts k Hin Hk) | intros k [] |].
  rewrite Hc. cbn [bind]. rewrite tally_closed by exact Hcn. cbn [bind]. rewrite !Hs. cbn [shots_of map zsum]. rewrite !Z.add_0_l. reflexivity.
Qed.

Lemma get_logical_prob_unknown log cnts results : get_logical_prob None ((log, cnts) :: results) = Err ZeroDivisionError.
Proof. reflexivity. Qed.

Lemma shots_bounds d P : (forall kv, In kv d -> (0 <= snd kv)%Z) -> (0 <= shots_of d P <= shots_of d (fun _ => true))%Z.
Proof.
  induction d as [|[k v] d IH]; intros H; [cbn; lia|]. rewrite !shots_of_cons.
  pose proof (H (k, v) (or_introl eq_refl)). cbn in *. specialize (IH (fun x Hx => H x (or_intror Hx))). destruct (P k); lia.
Qed.

(** Post-selection. *)
Lemma join_split2 cur s : join [sp; sp] (split2 cur s) = rev cur ++ s.
Proof.
  assert (Hind : forall n s cur, length s <= n -> join [sp; sp] (split2 cur s) = rev cur ++ s /\ split2 cur s <> []).
  { clear. induction n as [|n IH]; intros s cur Hn.
    - destruct s; [|cbn in Hn; lia]. cbn. rewrite app_nil_r. split; [reflexivity | discriminate].
    - destruct s as [|a [|b s]].
      + cbn. rewrite app_nil_r. split; [reflexivity | discriminate].
      + cbn. split; [reflexivity | discriminate].
      + change (split2 cur (a :: b :: s)) with (if eqb a sp && eqb b sp then rev cur :: split2 [] s else split2 (a :: cur) (b :: s)).
        destruct (eqb a sp && eqb b sp) eqn:Eab.
        * apply andb_true_iff in Eab as [Ea Eb]. apply eqb_true in Ea, Eb. subst a b.
          destruct (IH s []) as [E Hne]; [cbn in Hn; lia|]. split; [|discriminate].
          destruct (split2 [] s) as [|x l] eqn:El; [congruence|].
          change (join [sp; sp] (rev cur :: x :: l)) with (rev cur ++ [sp; sp] ++ join [sp; sp] (x :: l)). rewrite E. reflexivity.
        * destruct (IH (b :: s) (a :: cur)) as [E Hne]; [cbn in *; lia|]. split; [|exact Hne].
          rewrite E. cbn [rev]. rewrite <- app_assoc. reflexivity. }
  apply (Hind (length s)). lia.
Qed.

Lemma error_free_spec s a b syndrome : decoder_string s a b syndrome ->
  error_free s = forallb (fun c => eqb c "0"%char || eqb c sp) syndrome.
Proof.
  intros (Ha & Hb & ->). unfold error_free, split_dsp. cbn [app split2].
  destruct (eqb_spec a sp); [contradiction|]. cbn [andb]. rewrite eqb_refl. destruct (eqb_spec b sp); [contradiction|]. cbn [andb].
  cbn [tl]. rewrite join_split2. reflexivity.
Qed.

Lemma postselection_lemma results :
  NoDup (map fst results) ->
  (forall log cnts, In (log, cnts) results -> NoDup (map fst cnts) /\ forall k, In k (map fst cnts) -> k <> []) ->
  postselection_decoding results
  = mapM (fun lc => do p <- freq (shots_of (snd lc) (fun s => error_free s && differs (fst lc) s)) (shots_of (snd lc) error_free); Ok (fst lc, p)) results.
Proof.
  intros Hnd Hk. unfold postselection_decoding.
  set (post := fun cnts : dict pystr Z => fold_left (fun d kv => if error_free (fst kv) then dset d (fst kv) (snd kv) else d) cnts []).
  transitivity (foldM (fun acc '(log, cnts) => do p <- (do (i, s) <- tally log (post cnts); ratio i s); Ok (dset acc log p)) results []).
  { generalize (@nil (pystr * (Z * Z))). clear Hnd Hk. induction results as [|[log cnts] results IH]; intros acc; [reflexivity|].
    cbn [foldM]. fold (post cnts). destruct (tally log (post cnts)) as [[i s]|e]; [|reflexivity]. cbn [bind].
    destruct (ratio i s); [|reflexivity]. cbn [bind]. apply IH. }
  rewrite (per_log_closed (fun log cnts => do (i, s) <- tally log (post cnts); ratio i s)) by exact Hnd.
  apply mapM_ext. intros [log cnts] Hin. cbn [fst snd]. destruct (Hk _ _ Hin) as [Hn Hne].
  assert (Hp : forall cnts acc : dict pystr Z, NoDup (map fst cnts) -> (forall k, In k (map fst cnts) -> ~ In k (map fst acc)) ->
     fold_left (fun d kv => if error_free (fst kv) then dset d (fst kv) (snd kv) else d) cnts acc = acc ++ filter (fun kv => error_free (fst kv)) cnts).
  { clear. induction cnts as [|[k v] cnts IH]; intros acc Hn Hd; [cbn; rewrite app_nil_r; reflexivity|].
    inversion Hn as [|? ? Hk Hn']; subst. cbn [fold_left filter fst snd]. destruct (error_free k).
    - assert (Eset : dset acc k v = acc ++ [(k, v)]).
      { apply dset_new, Hd; left; reflexivity. }
      rewrite Eset, IH.
      + rewrite <- app_assoc. reflexivity.
      + exact Hn'.
      + intros x Hx. rewrite map_app, in_app_iff. intros [Hi|[<-|[]]]; [apply (Hd x); [right; exact Hx | exact Hi] | contradiction].
    - apply IH; [exact Hn'|]. intros x Hx. apply Hd. right; exact Hx. }
  unfold post. rewrite Hp; [|exact Hn | intros k _ []]. cbn [app].
  rewrite tally_closed.
  2:{ intros k Hkin. apply Hne. apply in_map_iff in Hkin as (kv & <- & Hf). apply filter_In in Hf as [Hf _]. apply in_map, Hf. }
  cbn [bind].
  assert (Hf : forall P, shots_of (filter (fun kv => error_free (fst kv)) cnts) P = shots_of cnts (fun s => error_free s && P s)).
  { intros P. clear. induction cnts as [|[k v] cnts IH]; [reflexivity|]. cbn [filter fst]. destruct (error_free k) eqn:E; rewrite !shots_of_cons, ?E; cbn [andb]; rewrite <- IH; reflexivity. }
  rewrite !Hf. f_equal. unfold ratio, freq.
  rewrite (shots_of_ext cnts (fun s => error_free s && true) error_free) by (intros; apply Bool.andb_true_r). reflexivity.
Qed.

Lemma lookup_lemma training t0 t1 real :
  NoDup (map fst real) -> dget training (str "0") = Some t0 -> dget training (str "1") = Some t1 ->
  (forall log cnts, In (log, cnts) real -> log = str "0" \/ log = str "1") ->
  lookuptable_decoding training real
  = mapM (fun lc => do p <- freq (shots_of (snd lc) (fun s => if eqb (fst lc) (str "0") then (dget0 t1 s >? dget0 t0 s)%Z else (dget0 t0 s >? dget0 t1 s)%Z))
                                 (shots_of (snd lc) (fun _ => true)); Ok (fst lc, p)) real.
Proof.
  intros Hnd H0 H1 Hlog. unfold lookuptable_decoding.
  set (h := fun (log : pystr) (cnts : dict pystr Z) => foldM (fun '(incorrect, shots) kv =>
         do t0 <- dget_e training (str "0");
         do t1 <- dget_e training (str "1");
         let p := [(str "0", dget0 t0 (fst kv)); (str "1", dget0 t1 (fst kv))] in
         let other := (if eqb log (str "0") then str "1" else []) ++ (if eqb log (str "1") then str "0" else []) in
         do po <- dget_e p other; do pl <- dget_e p log;
         Ok ((if po >? pl then incorrect + snd kv else incorrect)%Z, (shots + snd kv)%Z)) cnts (0%Z, 0%Z)).
  transitivity (foldM (fun acc '(log, cnts) => do p <- (do (i, s) <- h log cnts; ratio i s); Ok (dset acc log p)) real []).
  { generalize (@nil (pystr * (Z * Z))). clear Hnd Hlog. induction real as [|[log cnts] results IH]; intros acc; [reflexivity|].
    cbn [foldM]. fold (h log cnts). destruct (h log cnts) as [[i s]|e]; [|reflexivity]. cbn [bind].
    destruct (ratio i s); [|reflexivity]. cbn [bind]. apply IH. }
  rewrite (per_log_closed (fun log cnts => do (i, s) <- h log cnts; ratio i s)) by exact Hnd.
  apply mapM_ext. intros [log cnts] Hin. cbn [fst snd].
  set (P := fun s => if eqb log (str "0") then (dget0 t1 s >? dget0 t0 s)%Z else (dget0 t0 s >? dget0 t1 s)%Z).
  assert (Hh : h log cnts = Ok (shots_of cnts P, shots_of cnts (fun _ => true))).
  { unfold h. specialize (Hlog _ _ Hin). clear -H0 H1 Hlog.
    assert (Hg : forall (cnts : dict pystr Z) i s, foldM (fun '(incorrect, shots) kv =>
         do t0 <- dget_e training (str "0");
         do t1 <- dget_e training (str "1");
         let p := [(str "0", dget0 t0 (fst kv)); (str "1", dget0 t1 (fst kv))] in
         let other := (if eqb log (str "0") then str "1" else []) ++ (if eqb log (str "1") then str "0" else []) in
         do po <- dget_e p other; do pl <- dget_e p log;
         Ok ((if po >? pl then incorrect + snd kv else incorrect)%Z, (shots + snd kv)%Z)) cnts (i, s)
       = Ok ((i + shots_of cnts P)%Z, (s + shots_of cnts (fun _ => true))%Z)).
    { intros c. induction c as [|[k v] c IH]; intros i s; [unfold shots_of; cbn [foldM map zsum]; rewrite !Z.add_0_r; reflexivity|].
      cbn [foldM fst snd]. unfold dget_e at 1 2. rewrite H0, H1. cbn [bind].
      rewrite !shots_of_cons.
      destruct Hlog as [-> | ->].
      - change (eqb (str "0") (str "0")) with true. change (eqb (str "0") (str "1")) with false. cbn [app].
        change (dget_e [(str "0", dget0 t0 k); (str "1", dget0 t1 k)] (str "1" ++ [])) with (Ok (dget0 t1 k)).
        change (dget_e [(str "0", dget0 t0 k); (str "1", dget0 t1 k)] (str "0")) with (Ok (dget0 t0 k)). cbn [bind].
        rewrite IH. change (P k) with (dget0 t1 k >? dget0 t0 k)%Z. destruct (dget0 t1 k >? dget0 t0 k)%Z; do 2 f_equal; lia.
      - change (eqb (str "1") (str "0")) with false. change (eqb (str "1") (str "1")) with true. cbn [app].
        change (dget_e [(str "0", dget0 t0 k); (str "1", dget0 t1 k)] (str "0")) with (Ok (dget0 t0 k)).
        change (dget_e [(str "0", dget0 t0 k); (str "1", dget0 t1 k)] (str "1")) with (Ok (dget0 t1 k)). cbn [bind].
        rewrite IH. change (P k) with (dget0 t0 k >? dget0 t1 k)%Z. destruct (dget0 t0 k >? dget0 t1 k)%Z; do 2 f_equal; lia. }
    rewrite Hg. reflexivity. }
  rewrite Hh. reflexivity.
Qed.

Lemma per_log_mapM {A B} (h : pystr -> A -> result B) results :
  mapM (fun lc => do p <- h (fst lc) (snd lc); Ok (fst lc, p)) results = per_log h results.
Proof.
  induction results as [|[log c] results IH]; [reflexivity|]. cbn [mapM per_log fst snd].
  destruct (h log c); [|reflexivity]. cbn [bind]. rewrite IH. reflexivity.
Qed.

Lemma per_log_In {A B} (h : pystr -> A -> result B) results r : per_log h results = Ok r ->
  map fst r = map fst results /\ forall log c, In (log, c) results -> exists p, h log c = Ok p /\ In (log, p) r.
Proof.
  revert r. induction results as [|[log c] results IH]; intros r; cbn [per_log].
  - intros [= <-]. split; [reflexivity | intros log c []].
  - destruct (h log c) as [p|e] eqn:Eh; [|discriminate]. cbn [bind]. destruct (per_log h results) as [ps|e]; [|discriminate]. cbn [bind].
    intros [= <-]. destruct (IH ps eq_refl) as [Hk Hi]. split; [cbn; rewrite Hk; reflexivity|].
    intros l c' [[= <- <-]|Hin]; [exists p; split; [exact Eh | left; reflexivity]|].
    destruct (Hi l c' Hin) as (p' & Hp & Hin'). exists p'. split; [exact Hp | right; exact Hin'].
Qed.

(** No logical error when every shot has fewer than [d/2] faults. *)
Lemma C15_prob_lemma d T shots S spl mwm results :
  2 <= d -> 1 <= T -> is_shortest_path spl -> is_max_weight_matching mwm ->
  let c := repetition_code d T in
  make_syndrome_graph c shots = Ok S ->
  NoDup (map fst results) ->
  (forall log cnts, In (log, cnts) results -> shots_of cnts (fun _ => true) <> 0%Z /\
     exists b, log = [bit_char b] /\
     forall k, In k (map fst cnts) -> exists fs, Forall (fault_ok (rc_circ c b)) fs /\ 2 * length fs < d /\
        process_string d T (faulty_outcome c b fs) = Ok k) ->
  get_logical_prob (Some (matching spl mwm S)) results
  = Ok (map (fun lc => (fst lc, (0%Z, shots_of (snd lc) (fun _ => true)))) results).
Proof.
  intros Hd HT Hspl Hmwm c HS Hnd Hres.
  rewrite (get_logical_prob_lemma _ (fun k => match matching spl mwm S k with Ok s => s | Err _ => [] end)); [|exact Hnd|].
  - rewrite (mapM_Ok _ (fun lc => (fst lc, (0%Z, shots_of (snd lc) (fun _ => true))))); [reflexivity|].
    intros [log cnts] Hin. cbn [fst snd]. destruct (Hres _ _ Hin) as (Hnz & b & -> & Hk).
    unfold freq. destruct (Z.eqb_spec (shots_of cnts (fun _ => true)) 0) as [E|_]; [contradiction|]. cbn [bind]. do 3 f_equal.
    transitivity (shots_of cnts (fun _ => false)).
    + apply shots_of_ext. intros k Hkin. destruct (Hk k Hkin) as (fs & Hf & Hl & Hp).
      destruct (C15_lemma d T shots S b fs spl mwm Hd HT Hspl Hmwm HS Hf Hl) as (s & Hs & Hm).
      fold c in Hs. rewrite Hp in Hs. injection Hs as <-. rewrite Hm. unfold differs. cbn [firstn]. rewrite eqb_refl. reflexivity.
    + unfold shots_of. apply zsum_map_zero.
  - intros log cnts k Hin Hkin. destruct (Hres _ _ Hin) as (_ & b & -> & Hk). destruct (Hk k Hkin) as (fs & Hf & Hl & Hp).
    destruct (C15_lemma d T shots S b fs spl mwm Hd HT Hspl Hmwm HS Hf Hl) as (s & Hs & Hm).
    fold c in Hs. rewrite Hp in Hs. injection Hs as <-. rewrite Hm. split; [reflexivity | discriminate].
Qed.

Lemma freq_bounds d P Q i s :
  (forall kv, In kv d -> (0 <= snd kv)%Z) -> (forall k, P k = true -> Q k = true) ->
  freq (shots_of d P) (shots_of d Q) = Ok (i, s) -> (0 <= i <= s)%Z /\ (0 < s)%Z.
Proof.
  intros Hd HPQ. unfold freq. destruct (Z.eqb_spec (shots_of d Q) 0) as [|Hne]; [discriminate|]. intros [= <- <-].
  assert (H : (0 <= shots_of d P <= shots_of d Q)%Z).
  { clear Hne. induction d as [|[k v] d IH]; [cbn; lia|]. rewrite !shots_of_cons. pose proof (Hd (k, v) (or_introl eq_refl)). cbn in *.
    specialize (IH (fun x Hx => Hd x (or_intror Hx))). specialize (HPQ k). destruct (P k), (Q k); try lia. }
  lia.
Qed.

Lemma no_shots_lemma log rest :
  get_logical_prob None ((log, []) :: rest) = Err ZeroDivisionError /\
  (forall cnts, get_logical_prob None ((log, cnts) :: rest) = Err ZeroDivisionError) /\
  (forall cnts, (forall k, In k (map fst cnts) -> error_free k = false) ->
     postselection_decoding ((log, cnts) :: rest) = Err ZeroDivisionError).
Proof.
  split; [reflexivity|]. split; [reflexivity|]. intros cnts Hc. unfold postselection_decoding. cbn [foldM].
  assert (E : fold_left (fun d kv => if error_free (fst kv) then dset d (fst kv) (snd kv) else d) cnts (@nil (pystr * Z)) = []).
  { induction cnts as [|[k v] cnts IH]; [reflexivity|]. cbn [fold_left fst]. rewrite (Hc k) by (left; reflexivity). apply IH.
    intros k' Hk'. apply Hc. right; exact Hk'. }
  rewrite E. reflexivity.
Qed.
