(** Probabilities of the padded circuits and corrected counts (C36). *)
From Coq Require Import QArith Permutation.
From Verif Require Import Base LinAlg ResultFacts QSem CountsModel DihedralModel RBSeqModel RBSeqSpec RBSeqActProofs StdGates AccModel AccSpec AccLayerProofs AccQotpProofs.
Open Scope nat_scope.

Definition is_key (n : nat) (k : pystr) : Prop := exists cl, length cl = n /\ k = key_of cl.

Lemma length_key cl : length (key_of cl) = length cl.
Proof. unfold key_of. rewrite map_length, rev_length. reflexivity. Qed.
Lemma key_inj a b : key_of a = key_of b -> a = b.
Proof.
  unfold key_of. intros H. rewrite <- (rev_involutive a), <- (rev_involutive b). f_equal. revert H. generalize (rev a) (rev b). clear.
  intros a. induction a as [|x a IH]; intros [|y b] H; try discriminate; auto. cbn in H. injection H as H1 H2. f_equal; [|auto].
  destruct x, y; try reflexivity; discriminate.
Qed.
Lemma combine_app {A B} (a a' : list A) (b b' : list B) : length a = length b -> combine (a ++ a') (b ++ b') = combine a b ++ combine a' b'.
Proof. revert b; induction a as [|x a IH]; intros [|y b] H; cbn in *; try discriminate; auto. f_equal. apply IH. lia. Qed.
Lemma rev_combine {A B} (a : list A) (b : list B) : length a = length b -> rev (combine a b) = combine (rev a) (rev b).
Proof.
  revert b; induction a as [|x a IH]; intros [|y b] H; cbn in *; try discriminate; auto.
  rewrite IH by lia. rewrite combine_app by (rewrite !rev_length; lia). reflexivity.
Qed.

Lemma shift_key_of cl xs : length cl = length xs -> shift_key (key_of cl) (rev xs) = key_of (xors cl xs).
Proof.
  intros H. unfold shift_key, key_of, xors. rewrite <- map_rev, rev_combine by exact H. rewrite map_map.
  assert (L : length (rev cl) = length (rev xs)) by (rewrite !rev_length; exact H). revert L. generalize (rev cl) (rev xs). clear.
  intros a. induction a as [|x a IH]; intros [|y b] H; cbn in *; try discriminate; auto. f_equal; [|apply IH; lia]. destruct x, y; reflexivity.
Qed.
Lemma shift_is_key n k xs : is_key n k -> length xs = n -> is_key n (shift_key k (rev xs)).
Proof. intros (cl & Hc & ->) Hx. rewrite shift_key_of by lia. exists (xors cl xs). split; [rewrite length_xors; lia|reflexivity]. Qed.
Lemma shift_inj n xs k k' : is_key n k -> is_key n k' -> length xs = n -> shift_key k (rev xs) = shift_key k' (rev xs) -> k = k'.
Proof.
  intros (cl & Hc & ->) (cl' & Hc' & ->) Hx E. rewrite !shift_key_of in E by lia. apply key_inj in E. f_equal.
  rewrite <- (xors_xors cl xs), <- (xors_xors cl' xs) by lia. congruence.
Qed.

(** ** Corrected counts *)
Lemma dset_fresh {A B} `{Eqb A} (d : list (A * B)) k v : ~ In k (map fst d) -> dset d k v = d ++ [(k, v)].
Proof.
  induction d as [|[k' v'] d IH]; intros Hn; [reflexivity|]. cbn in *. destruct (eqb_spec k k') as [->|]; [exfalso; apply Hn; auto|]. rewrite IH by auto. reflexivity.
Qed.
Lemma correct_counts_map n xs c : length xs = n -> NoDup (map fst c) -> Forall (fun kv => is_key n (fst kv)) c ->
  qotp_correct_counts c (rev xs) = map (fun kv => (shift_key (fst kv) (rev xs), snd kv)) c.
Proof.
  intros Hx. unfold qotp_correct_counts. 
  assert (G : forall c acc, NoDup (map fst c) -> Forall (fun kv => is_key n (fst kv)) c ->
    (forall k, In k (map fst c) -> ~ In (shift_key k (rev xs)) (map fst acc)) ->
    fold_left (fun out kv => dset out (shift_key (fst kv) (rev xs)) (snd kv)) c acc = acc ++ map (fun kv : pystr * Z => (shift_key (fst kv) (rev xs), snd kv)) c).
  { clear c. induction c as [|[k v] c IH]; intros acc Hd Hk Hf; cbn [fold_left map fst snd]; [rewrite app_nil_r; reflexivity|].
    cbn [map fst] in Hd, Hf. apply NoDup_cons_iff in Hd. destruct Hd as [Hn Hd]. apply Forall_cons_iff in Hk. destruct Hk as [Hk Hks]. cbn [fst] in Hk.
    rewrite dset_fresh by (apply Hf; left; reflexivity). rewrite IH; [rewrite <- app_assoc; reflexivity|exact Hd|exact Hks|].
    intros k' Hk' Hi. rewrite map_app, in_app_iff in Hi. destruct Hi as [Hi|[Hi|[]]]; [apply (Hf k' (or_intror Hk') Hi)|]. cbn [fst] in Hi.
    assert (k = k'). { apply (shift_inj n xs); auto. rewrite Forall_forall in Hks. apply in_map_iff in Hk'. destruct Hk' as [[k1 v1] [<- H1]]. exact (Hks _ H1). }
    subst k'. contradiction. }
  intros Hd Hk. apply (G c []); auto. 
Qed.

(** ** Reading the qubits *)
Definition rstep (y cl : bits) (j : cinstr) : bits := match j with CMeasure q c => set1 cl c (nth q y false) | _ => cl end.
Lemma reads_measures m ops y : reads m ops y = reads m (measures ops) y.
Proof.
  unfold reads. generalize (repeat false m). induction ops as [|j ops IH]; intros cl; [reflexivity|]. destruct j as [g|b|q c]; cbn; apply IH.
Qed.
Lemma reads_all n ops y : measures_all n ops -> length y = n -> reads n ops y = y.
Proof.
  intros [H1 H2] Hy. 
  assert (G : forall l cl, (forall q c, In (CMeasure q c) l -> c = q /\ q < n) -> length cl = n ->
     length (fold_left (rstep y) l cl) = n /\ forall j, j < n -> nth j (fold_left (rstep y) l cl) false = nth j y false \/
       (~ In (CMeasure j j) l /\ nth j (fold_left (rstep y) l cl) false = nth j cl false)).
  { induction l as [|a l IH]; intros cl Hm Hc; [split; [exact Hc|]; intros j Hj; right; split; [intros []|reflexivity]|].
    assert (Hm' : forall q c, In (CMeasure q c) l -> c = q /\ q < n) by (intros q c H; apply Hm; right; exact H).
    cbn [fold_left]. destruct a as [g|b|q c].
    - cbn [rstep]. destruct (IH cl Hm' Hc) as [L N]. split; [exact L|]. intros j Hj. destruct (N j Hj) as [N1|[N1 N2]]; auto. right. split; auto. intros [K|K]; [discriminate|auto].
    - cbn [rstep]. destruct (IH cl Hm' Hc) as [L N]. split; [exact L|]. intros j Hj. destruct (N j Hj) as [N1|[N1 N2]]; auto. right. split; auto. intros [K|K]; [discriminate|auto].
    - destruct (Hm q c (or_introl eq_refl)) as [-> Hq]. cbn [rstep].
      destruct (IH (set1 cl q (nth q y false)) Hm' ltac:(rewrite length_set1; exact Hc)) as [L N]. split; [exact L|].
      intros j Hj. destruct (N j Hj) as [N1|[N1 N2]]; auto. destruct (Nat.eq_dec j q) as [->|Hn].
      + left. rewrite N2. apply nth_set1_eq. lia.
      + right. split; [intros [K|K]; [injection K as K; congruence|auto]|]. rewrite N2. apply nth_set1_ne. congruence. }
  destruct (G ops (repeat false n) H1 (repeat_length _ _)) as [L N]. apply bits_ext; [rewrite Hy; exact L|]. intros j Hj.
  change (reads n ops y) with (fold_left (rstep y) ops (repeat false n)) in *. rewrite L in Hj. destruct (N j Hj) as [N1|[N1 _]]; [exact N1|]. exfalso. apply N1, H2, Hj.
Qed.
Lemma measures_all_eq n a b : measures a = measures b -> measures_all n a -> measures_all n b.
Proof.
  intros E [H1 H2]. assert (G : forall q c, In (CMeasure q c) a <-> In (CMeasure q c) b).
  { intros q c. assert (K : forall l, In (CMeasure q c) l <-> In (CMeasure q c) (measures l)).
    { intros l. unfold measures. rewrite filter_In. cbn. tauto. } rewrite (K a), (K b), E. tauto. }
  split; [intros q c H; apply H1, G, H | intros q H; apply G, H2, H].
Qed.

Section Probs.
Context {F : Type} {HF : Fld F} {K : Type} {HK : Fld K}.
Add Field FldFieldPF : (@fth F HF).
Add Field FldFieldPK : (@fth K HK).
Variable gmat : pystr -> list Q -> bits -> bits -> F.
Variable w : F -> K.
Hypothesis Hw : weighing w.
Variables r i : F.
Hypothesis Hstd : std_gates gmat r i.

Lemma w_sgn b : w (sgn b) = f1.
Proof. destruct b; cbn [sgn]; [apply (w_neg _ Hw) | apply (w_one _ Hw)]. Qed.
Lemma w_nz k : k <> f0 -> w k <> f0.
Proof.
  intros H E. apply (f1_neq_0 (F:=K)). rewrite <- (w_one _ Hw). replace (f1 : F) with (fmul k (fdiv f1 k)) by (field; exact H).
  rewrite (w_mul _ Hw), E. ring.
Qed.

Lemma cube_NoDup n : NoDup (cube n).
Proof.
  induction n as [|n IH]; cbn [cube]; [repeat constructor; intros []|]. apply nodup_app_iff.
  split; [|split]; try (apply FinFun.Injective_map_NoDup; [intros a b E; congruence|exact IH]).
  intros x Hx Hx'. apply in_map_iff in Hx, Hx'. destruct Hx as [a [<- _]], Hx' as [b [E _]]. discriminate.
Qed.
Lemma nodup_map_in {A B} (f : A -> B) l : (forall a b, In a l -> In b l -> f a = f b -> a = b) -> NoDup l -> NoDup (map f l).
Proof.
  intros Hf Hd. induction Hd as [|a l Ha Hd IH]; cbn; constructor.
  - intros Hi. apply in_map_iff in Hi. destruct Hi as [b [E Hb]]. apply Ha. rewrite (Hf a b); auto; [left; reflexivity|right; exact Hb].
  - apply IH. intros b c Hb Hc. apply Hf; right; assumption.
Qed.
Lemma cube_xors n xs : length xs = n -> Permutation (map (fun y => xors y xs) (cube n)) (cube n).
Proof.
  intros Hx. apply NoDup_Permutation_bis.
  - apply nodup_map_in; [|apply cube_NoDup]. intros a b Ha Hb E. apply in_cube in Ha, Hb. rewrite <- (xors_xors a xs), <- (xors_xors b xs) by lia. congruence.
  - rewrite map_length. apply le_n.
  - intros y Hy. apply in_map_iff in Hy. destruct Hy as [a [<- Ha]]. apply in_cube in Ha. apply in_cube. rewrite length_xors. lia.
Qed.
Lemma fsum_xors n xs (f : bits -> K) : length xs = n -> fsum (map (fun y => f (xors y xs)) (cube n)) = fsum (map f (cube n)).
Proof. intros Hx. rewrite <- (map_map (fun y => xors y xs) f). apply fsum_perm, Permutation_map, cube_xors, Hx. Qed.

Lemma prob_shift n ops circ xs k : length xs = n -> k <> f0 -> measures_all n ops -> measures circ = measures ops ->
  (forall y, length y = n -> exists b, final gmat n circ y = fmul k (fmul (sgn b) (final gmat n ops (xors y xs)))) ->
  total gmat w n ops <> f0 ->
  forall key, is_key n key -> prob gmat w n n circ key = prob gmat w n n ops (shift_key key (rev xs)).
Proof.
  intros Hx Hk Hm Em Hf Ht key (cl & Hc & ->). rewrite shift_key_of by lia.
  assert (Hmc : measures_all n circ) by (apply (measures_all_eq n ops); auto).
  assert (Hw1 : forall y, length y = n -> w (final gmat n circ y) = fmul (w k) (w (final gmat n ops (xors y xs)))).
  { intros y Hy. destruct (Hf y Hy) as [b E]. rewrite E, !(w_mul _ Hw), w_sgn. ring. }
  unfold prob. 
  assert (Et : total gmat w n circ = fmul (w k) (total gmat w n ops)).
  { unfold total. rewrite <- fsum_map_mul. rewrite <- (fsum_xors n xs (fun y => fmul (w k) (w (final gmat n ops y))) Hx). apply fsum_map_ext. intros y Hy. apply in_cube in Hy. apply Hw1, Hy. }
  rewrite Et. match goal with |- fdiv ?a _ = fdiv ?b _ => assert (E : a = fmul (w k) b) end.
  { rewrite <- fsum_map_mul. match goal with |- _ = fsum (map ?f _) => rewrite <- (fsum_xors n xs f Hx) end. apply fsum_map_ext. intros y Hy. apply in_cube in Hy.
    rewrite !reads_all by (auto; rewrite ?length_xors; lia).
    destruct (eqb_spec (key_of y) (key_of cl)) as [E|E].
    - apply key_inj in E. subst cl. destruct (eqb_spec (key_of (xors y xs)) (key_of (xors y xs))); [|contradiction]. apply Hw1, Hy.
    - destruct (eqb_spec (key_of (xors y xs)) (key_of (xors cl xs))) as [E'|_]; [|ring]. exfalso. apply E. apply key_inj in E'. f_equal.
      rewrite <- (xors_xors y xs), <- (xors_xors cl xs) by lia. congruence. }
  rewrite E. field. split; [exact Ht|apply w_nz, Hk].
Qed.

Lemma gates_measures ops : gates (measures ops) = [].
Proof. induction ops as [|j ops IH]; [reflexivity|]. destruct j; cbn; exact IH. Qed.
Lemma measures_idem ops : measures (measures ops) = measures ops.
Proof. induction ops as [|j ops IH]; [reflexivity|]. destruct j; cbn; auto. f_equal. exact IH. Qed.

Variable tp : list cinstr -> list cinstr.
Variable n : nat.
Hypothesis Htp : transpiles gmat n tp.

(** One padded circuit. *)
Lemma pad_final rnd pos L ops circ postp pos' : good_layers n L -> ly_meas L = measures ops ->
  same_action gmat n (gates (woven (ly_single L) (ly_two L))) (gates ops) ->
  qotp_fromlayers tp rnd pos L = Ok (circ, postp, pos') ->
  exists xs k, length xs = n /\ postp = rev xs /\ measures circ = measures ops /\ k <> f0 /\
    forall y, length y = n -> exists b, final gmat n circ y = fmul k (fmul (sgn b) (final gmat n ops (xors y xs))).
Proof.
  intros G Em Ha E. destruct (qotp_action gmat r i Hstd tp n Htp rnd pos L circ postp pos' G E) as (zs0 & zs & xs & Hx & Ep & Mc & Act).
  exists xs. destruct (final_pad gmat r i Hstd n zs0 zs xs (woven (ly_single L) (ly_two L)) ops circ Hx) as [k [Hk H]]; auto.
  - clear - G. destruct G as [_ Gs Gt _]. revert Gt. generalize (ly_two L). induction Gs as [|s l Hs Gs IH]; intros twos Gt; [reflexivity|].
    destruct twos as [|t twos]; cbn [woven]; [eapply one_no_meas, Hs|]. apply Forall_cons_iff in Gt. destruct Gt as [Ht Gt].
    unfold no_meas. rewrite !meas_app. rewrite (one_no_meas n s Hs), (two_no_meas n (ly_gate L) t (layer2_ok _ _ _ Ht)). apply IH, Gt.
  - rewrite Em in Act. rewrite !gates_app, gates_measures, app_nil_r in Act. rewrite !gates_app. exact Act.
  - exists k. rewrite Em, measures_idem in Mc. auto.
Qed.

Lemma parsed_good g2 ops L : Forall (native n) ops -> layer_parser tp g2 n ops = Ok L ->
  good_layers n L /\ ly_meas L = measures ops /\ ly_gate L = g2 /\ same_action gmat n (gates (woven (ly_single L) (ly_two L))) (gates ops).
Proof.
  intros Hn E. destruct (layer_parser_correct gmat r i Hstd tp g2 n ops L Htp Hn E) as (H1 & H2 & H3 & H4 & H5 & H6 & H7).
  split; [constructor; auto; rewrite H6; exact H4|]. auto.
Qed.

Theorem qotp_preserves g2 ops num rnd out : Forall (native n) ops -> measures_all n ops -> total gmat w n ops <> f0 ->
  qotp tp g2 n ops num rnd = Ok out ->
  length out = num /\ forall circ postp, In (circ, postp) out -> length postp = n /\
    forall key, is_key n key -> prob gmat w n n circ key = prob gmat w n n ops (shift_key key postp).
Proof.
  intros Hn Hm Ht E. unfold qotp in E. inv_bind E. destruct (parsed_good g2 ops v Hn E0) as (G & Em & _ & Ha). clear E0.
  revert E. generalize 0 as pos. revert out. induction num as [|num IH]; intros out pos E; cbn [qotp_loop] in E.
  - injection E as <-. split; [reflexivity|]. intros ? ? [].
  - inv_bind E. destruct v0 as [[c p] pos']. inv_bind E. injection E as <-. destruct (IH _ _ E1) as [L1 L2]. split; [cbn; rewrite L1; reflexivity|].
    intros circ postp [K1|K1]; [|apply L2, K1]. injection K1 as -> ->.
    destruct (pad_final rnd pos v ops circ postp pos' G Em Ha E0) as (xs & k & Hx & -> & Mc & Hk & Hf).
    split; [rewrite rev_length; exact Hx|]. apply (prob_shift n ops circ xs k); auto.
Qed.

(** It never fails for cx and cz. *)
Lemma pauli_total g2 l : g2 = str "cx" \/ g2 = str "cz" -> Forall (two_ok g2 n) l -> forall p, exists p', foldM (pauli_step g2) l p = Ok p'.
Proof.
  intros Hg. induction 1 as [|j l Hj _ IH]; intros [z x]; cbn [foldM]; [eauto|]. destruct Hj as (c & t & -> & _).
  unfold pauli_step at 1. cbn [instr_qubits gqubits index_e nth_error bind]. destruct Hg as [->| ->].
  - change (eqb (str "cx") (str "cx")) with true. cbn [bind]. apply IH.
  - change (eqb (str "cz") (str "cx")) with false. change (eqb (str "cz") (str "cz")) with true. cbn [bind]. apply IH.
Qed.
Lemma qotp_fromlayers_total rnd pos L : good_layers n L -> ly_gate L = str "cx" \/ ly_gate L = str "cz" -> exists o, qotp_fromlayers tp rnd pos L = Ok o.
Proof.
  intros [Gn Gs Gt Gl] Hg. unfold qotp_fromlayers.
  assert (G : forall twos k s, Forall (layer2 (ly_gate L) n) twos -> k + length twos < length (ly_single L) ->
     exists s', foldM (qotp_step tp rnd L) (combine (seq k (length twos)) twos) s = Ok s').
  { induction twos as [|t twos IH]; intros k [[c tm] p] Ht Hl; cbn [length seq combine foldM]; [eauto|]. apply Forall_cons_iff in Ht. destruct Ht as [Ht Hts].
    cbn [qotp_step fst snd length] in *. unfold index_e. destruct (nth_error (ly_single L) k) eqn:E; [|apply nth_error_None in E; lia]. cbn [bind].
    destruct (pauli_total (ly_gate L) t Hg (layer2_ok _ _ _ Ht) (draw rnd p (ly_n L), draw rnd (p + ly_n L) (ly_n L))) as [p' ->]. cbn [bind]. apply IH; [exact Hts|lia]. }
  destruct (G (ly_two L) 0 ([], zs_gates (ly_n L) (draw rnd pos (ly_n L)), pos + ly_n L) Gt ltac:(lia)) as [[[c t] p] ->]. cbn [bind].
  destruct (ly_single L); [discriminate|]. cbn [bind]. eauto.
Qed.
Theorem qotp_total g2 ops num rnd : Forall (native n) ops -> g2 = str "cx" \/ g2 = str "cz" -> exists out, qotp tp g2 n ops num rnd = Ok out.
Proof.
  intros Hn Hg. unfold qotp. destruct (layer_parser_total tp g2 n ops Hg Hn) as [L E]. rewrite E. cbn [bind].
  destruct (parsed_good g2 ops L Hn E) as (G & _ & Eg & _). rewrite <- Eg in Hg. clear E Eg. generalize 0.
  induction num as [|num IH]; intros pos; cbn [qotp_loop]; [eauto|].
  destruct (qotp_fromlayers_total rnd pos L G Hg) as [[[c p] pos'] ->]. cbn [bind]. destruct (IH pos') as [out ->]. cbn. eauto.
Qed.
End Probs.
