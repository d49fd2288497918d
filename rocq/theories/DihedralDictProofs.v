(** Random elements and dictionaries of elements. *)
From Coq Require Import QArith Setoid Morphisms.
From Verif Require Import Base DihedralModel DihedralSpec DihedralPolyProofs DihedralValueProofs DihedralGroupProofs DihedralGateProofs DihedralDecompProofs DihedralAlgebraProofs DihedralSetProofs.
Open Scope nat_scope.

Lemma random_spec det_odd n r1 r2 r3 linears rs : decides_invertible det_odd -> 1 <= n ->
  length r1 = n -> Forall (fun c => 0 <= c < 8)%Z r1 ->
  length r2 = length (pairs n) -> Forall (fun c => 0 <= c < 4)%Z r2 ->
  length r3 = length (triples n) -> Forall (fun c => 0 <= c < 2)%Z r3 ->
  (forall m, In m linears -> length m = n /\ Forall (fun r => length r = n) m) -> length rs = n ->
  (exists m, In m linears /\ det_odd m = true) ->
  exists e, random_cnotdihedral det_odd n r1 r2 r3 linears rs = Some (Ok e) /\ wf_cdi n e /\ w0 (dpoly e) = 0%Z.
Proof.
  intros Hdet Hn L1 R1 L2 R2 L3 R3 Hl Ls (m & Hm & Hd). unfold random_cnotdihedral. destruct (find det_odd linears) as [l|] eqn:F.
  - apply find_some in F as [Hin Hd']. destruct (id_spec n Hn) as (e0 & -> & W0 & P0 & _). cbn [bind]. eexists. split; [reflexivity|]. split; [|cbn; rewrite P0; reflexivity].
    destruct (Hl l Hin) as [Ll Lr]. set (e := {| dn := n |}). constructor; cbn [e dn dpoly dlin dshift].
    + reflexivity.
    + exact Hn.
    + rewrite P0. constructor; cbn [pn w0 w1 w2 w3 zeros]; try rewrite map_length; try assumption; try reflexivity.
      * unfold reduced. lia.
      * clear -R2. induction R2; constructor; [unfold reduced; lia | assumption].
      * clear -R3. induction R3; constructor; [unfold reduced; lia | assumption].
    + split; cbn [w2 w3].
      * clear. induction r2; constructor; [apply Z.mod_divide; [lia|]; exists a; ring | assumption].
      * clear. induction r3; constructor; [apply Z.mod_divide; [lia|]; exists a; ring | assumption].
    + exact Ll.
    + exact Lr.
    + exact Ls.
    + intros x y H. apply (proj1 (Hdet n l Ll Lr) Hd'). intros i Hi. specialize (H i Hi). unfold image in H. cbn [e dn dlin dshift] in H.
      destruct (parity n (nth i l []) x), (parity n (nth i l []) y), (nth i rs false); cbn in H; congruence.
  - exfalso. pose proof (find_none _ _ F m Hm). congruence.
Qed.

(** ** Dictionaries *)
Definition entry_ok (n : nat) (a : acc) : Prop := wf_cdi n (fst a) /\ w0 (dpoly (fst a)) = 0%Z /\ Forall (plain_gate n) (snd a) /\ implements n (snd a) (fst a).

Lemma good_start n e0 : cdi_id n = Ok e0 -> 1 <= n -> good n e0 (e0, []).
Proof.
  intros E Hn. destruct (id_spec n Hn) as (e1 & E1 & W & _). rewrite E in E1. injection E1 as <-. split; [exact W|]. split; [constructor|]. split; [|reflexivity].
  apply tracks_nil.
Qed.
Lemma good_entry n e0 a : cdi_id n = Ok e0 -> 1 <= n -> good n e0 a -> entry_ok n a.
Proof.
  intros E Hn (W & F & T & Z). destruct (id_spec n Hn) as (e1 & E1 & W1 & P1 & _ & _ & Ph & Im). rewrite E in E1. injection E1 as <-.
  split; [exact W|]. split; [rewrite Z, P1; reflexivity|]. split; [exact F|]. destruct T as (g & T). exists g. intros x. destruct (T x) as (k & y & R & Hp & Hs).
  destruct (runs_same n (snd a)) with (x := image e0 x) (x' := x) (k := k) (y := y) as (y' & R' & S'); [|apply Im | exact R|].
  { intros h Hh. rewrite Forall_forall in F. apply F, Hh. }
  exists k, y'. split; [exact R'|]. split; [rewrite Hp, Ph; apply eq8_k with 0%Z; ring|]. intros i Hi. rewrite <- (S' i Hi). apply Hs, Hi.
Qed.

Lemma dict0_entry_good n i e0 : cdi_id n = Ok e0 -> 1 <= n -> exists a, dict0_entry n i = Ok a /\ good n e0 a.
Proof.
  intros E Hn. unfold dict0_entry. rewrite E. cbn [bind].
  match goal with |- context [foldM ?f _ _] => set (st := f) end.
  assert (G : forall l a num, (forall j, In j l -> j < n) -> good n e0 a -> exists r, foldM st l (a, num) = Ok r /\ good n e0 (fst r)).
  { induction l as [|j l IH]; intros a num Hl Ga; [exists (a, num); auto|]. cbn [foldM]. unfold st at 1. cbv zeta.
    assert (Hj : j < n) by (apply Hl; left; reflexivity).
    assert (A1 : exists a1, (if 0 <? (num / 2) mod 8 then do_u1 a (Z.of_nat ((num / 2) mod 8)) j else Ok a) = Ok a1 /\ good n e0 a1).
    { destruct (0 <? (num / 2) mod 8); [destruct (good_u1 n e0 a (Z.of_nat ((num / 2) mod 8)) j Ga Hj) as (a1 & ? & ? & _); exists a1; auto | exists a; auto]. }
    destruct A1 as (a1 & -> & G1). cbn [bind].
    assert (A2 : exists a2, (if num mod 2 =? 1 then do_x a1 j else Ok a1) = Ok a2 /\ good n e0 a2).
    { destruct (num mod 2 =? 1); [destruct (good_x n e0 a1 j G1 Hj) as (a2 & ? & ? & _); exists a2; auto | exists a1; auto]. }
    destruct A2 as (a2 & -> & G2). cbn [bind]. apply IH; [intros q Hq; apply Hl; right; exact Hq | exact G2]. }
  destruct (G (seq 0 n) (e0, []) i) as (r & Er & Gr); [intros j Hj; apply in_seq in Hj; lia | apply good_start; assumption|].
  match goal with |- context [bind ?m _] => change m with (foldM st (seq 0 n) (((e0, []) : acc), i)) end. rewrite Er. cbn [bind]. exists (fst r). auto.
Qed.

Lemma dict_set_In d a b : In b (dict_set d a) -> b = a \/ In b d.
Proof.
  unfold dict_set. destruct (dict_mem d (fst a)).
  - intros H. apply in_map_iff in H as (c & <- & H). destruct (cdi_eqb (fst c) (fst a)); auto.
  - rewrite in_app_iff. intros [H|[H|[]]]; auto.
Qed.

Lemma make_dict_0_spec n : 1 <= n -> exists d, make_dict_0 n = Ok d /\ forall a, In a d -> entry_ok n a.
Proof.
  intros Hn. destruct (id_spec n Hn) as (e0 & E & _). unfold make_dict_0.
  assert (G : forall l d, (forall a, In a d -> good n e0 a) -> exists d', foldM (fun d i => do a <- dict0_entry n i; Ok (dict_set d a)) l d = Ok d' /\ forall a, In a d' -> good n e0 a).
  { induction l as [|i l IH]; intros d Hd; [exists d; auto|]. cbn [foldM]. destruct (dict0_entry_good n i e0 E Hn) as (a & -> & Ga). cbn [bind]. apply IH.
    intros b Hb. apply dict_set_In in Hb as [->|Hb]; auto. }
  destruct (G (seq 0 (16 ^ n)) []) as (d & Hd & Hg); [intros a []|]. exists d. split; [exact Hd|]. intros a Ha. apply (good_entry n e0); auto.
Qed.

Lemma implements_tracks n e0 a : cdi_id n = Ok e0 -> 1 <= n -> entry_ok n a -> good n e0 a.
Proof.
  intros E Hn (W & Z & F & g & I). destruct (id_spec n Hn) as (e1 & E1 & W1 & P1 & _ & _ & Ph & Im). rewrite E in E1. injection E1 as <-.
  split; [exact W|]. split; [exact F|]. split; [|rewrite Z, P1; reflexivity]. exists g. intros x. destruct (I x) as (k & y & R & Hp & Hs).
  destruct (runs_same n (snd a)) with (x := x) (x' := image e0 x) (k := k) (y := y) as (y' & R' & S'); [|intros i Hi; symmetry; apply Im, Hi | exact R|].
  { intros h Hh. rewrite Forall_forall in F. apply F, Hh. }
  exists k, y'. split; [exact R'|]. split; [rewrite Hp, Ph; apply eq8_k with 0%Z; ring|]. intros i Hi. rewrite <- (S' i Hi). apply Hs, Hi.
Qed.

Definition fresh (prior : list elem_dict) (d : elem_dict) : Prop :=
  forall a, In a d -> forall d', In d' prior -> dict_mem d' (fst a) = false.

Lemma make_dict_next_spec n prior : 1 <= n -> (forall a, In a (last prior []) -> entry_ok n a) ->
  exists d, make_dict_next n prior = Ok d /\ (forall a, In a d -> entry_ok n a) /\ fresh prior d /\
    (forall a, In a d -> exists b i j tp, In b (last prior []) /\ i < n /\ j < n /\ i <> j /\ tp < 4 /\
       snd a = snd b ++ [gcx i j] ++ (if 0 <? tp then [gu1 (Z.of_nat tp) j] else [])).
Proof.
  intros Hn Hp. destruct (id_spec n Hn) as (e0 & E & _). unfold make_dict_next.
  match goal with |- context [foldM ?f ?l []] => set (st := f); set (ts := l) end.
  set (shape := fun a : acc => exists b i j tp, In b (last prior []) /\ i < n /\ j < n /\ i <> j /\ tp < 4 /\ snd a = snd b ++ [gcx i j] ++ (if 0 <? tp then [gu1 (Z.of_nat tp) j] else [])).
  assert (Hts : forall a i j tp, In (a, i, j, tp) ts -> In a (last prior []) /\ i < n /\ j < n /\ tp < 4).
  { intros a i j tp H. apply in_flat_map in H as (a' & Ha & H). apply in_flat_map in H as (i' & Hi & H). apply in_flat_map in H as (j' & Hj & H). apply in_map_iff in H as (tp' & Ht & Htp).
    injection Ht as <- <- <- <-. apply in_seq in Hi, Hj, Htp. repeat split; (exact Ha || lia). }
  assert (G : forall l d, (forall x, In x l -> In x ts) -> (forall a, In a d -> good n e0 a) -> fresh prior d -> (forall a, In a d -> shape a) ->
     exists d', foldM st l d = Ok d' /\ (forall a, In a d' -> good n e0 a) /\ fresh prior d' /\ forall a, In a d' -> shape a).
  { induction l as [|[[[a i] j] tp] l IH]; intros d Hl Hd Hf Hs; [exists d; auto|]. cbn [foldM]. unfold st at 1.
    destruct (Hts a i j tp (Hl _ (or_introl eq_refl))) as (Ha & Hi & Hj & Htp). assert (Hl' : forall x, In x l -> In x ts) by (intros x Hx; apply Hl; right; exact Hx).
    destruct (Nat.eqb_spec i j) as [|Hij]; [cbn [bind]; apply IH; assumption|].
    pose proof (implements_tracks n e0 a E Hn (Hp a Ha)) as Ga. destruct (good_cx n e0 a i j Ga Hi Hj Hij) as (a1 & E1 & G1 & _). rewrite E1. cbn [bind].
    assert (S1 : snd a1 = snd a ++ [gcx i j]). { unfold do_cx in E1. destruct (cnot (fst a) i j); [|discriminate]. cbn [bind] in E1. injection E1 as <-. reflexivity. }
    assert (A2 : exists a2, (if 0 <? tp then do_u1 a1 (Z.of_nat tp) j else Ok a1) = Ok a2 /\ good n e0 a2 /\ snd a2 = snd a ++ [gcx i j] ++ (if 0 <? tp then [gu1 (Z.of_nat tp) j] else [])).
    { destruct (0 <? tp).
      - destruct (good_u1 n e0 a1 (Z.of_nat tp) j G1 Hj) as (a2 & E2 & G2 & _). exists a2. split; [exact E2|]. split; [exact G2|].
        unfold do_u1 in E2. destruct (phase (fst a1) (Z.of_nat tp) j); [|discriminate]. cbn [bind] in E2. injection E2 as <-. cbn [snd]. rewrite S1, <- app_assoc. reflexivity.
      - exists a1. split; [reflexivity|]. split; [exact G1|]. rewrite S1, app_nil_r. reflexivity. }
    destruct A2 as (a2 & -> & G2 & S2). cbn [bind]. destruct (existsb (fun d0 => dict_mem d0 (fst a2)) prior || dict_mem d (fst a2)) eqn:Em; cbn [bind]; [apply IH; assumption|].
    apply orb_false_iff in Em as [Em _]. apply IH; [exact Hl'| | |].
    - intros b Hb. apply in_app_iff in Hb as [Hb|[<-|[]]]; auto.
    - intros b Hb d' Hd'. apply in_app_iff in Hb as [Hb|[<-|[]]]; [apply (Hf b Hb d' Hd')|]. apply not_true_iff_false. intros T. apply not_true_iff_false in Em. apply Em.
      apply existsb_exists. exists d'. auto.
    - intros b Hb. apply in_app_iff in Hb as [Hb|[<-|[]]]; [auto|]. exists a, i, j, tp. auto 7. }
  destruct (G ts []) as (d & Hd & Hg & Hf & Hs); [auto | intros a [] | intros a [] | intros a []|]. exists d. split; [exact Hd|]. split; [|split; [exact Hf | exact Hs]].
  intros a Ha. apply (good_entry n e0); auto.
Qed.

(** ** Adjoint and composition *)
Lemma compose_identity n a b : n <= 8 -> wf_cdi n a -> wf_cdi n b -> (forall x, same n (image b (image a x)) x) ->
  (exists g, forall x, eq8 (phase_at b (image a x) + phase_at a x) g) -> compose cpython_union a b false = cdi_id n.
Proof.
  intros Hn Wa Wb Hi (g & Hp). destruct (compose_spec cpython_union n (cpython_sorted n Hn) a b false Wa Wb) as (c & -> & Wc & Zc & Ic & g' & Pc). cbn zeta in Ic, Pc.
  destruct (id_spec n (wd_pos n a Wa)) as (e0 & -> & W0 & P0 & L0 & S0 & Ph0 & I0). f_equal.
  assert (Pol : dpoly c = dpoly e0).
  { rewrite P0. assert (V : forall x, eq8 (value (dpoly c) x) (g' + g)). { intros x. change (value (dpoly c) x) with (phase_at c x). rewrite (Pc x), <- (Hp x). apply eq8_k with 0%Z. ring. }
    assert (V0 : value (dpoly c) (fun _ => false) = 0%Z).
    { rewrite (value_tm n _ _ (wd_poly n c Wc)). erewrite zsum_map_ext; [apply zsum_map_zero|]. intros t Ht. cbn beta. destruct t as [|i t]; [rewrite tm_0, Zc; reflexivity|]. cbn [monomial bit]. ring. }
    apply (unique n); [apply (wd_poly n c Wc) | apply zeros_wf|]. intros x _. rewrite (V x), <- (V (fun _ => false)), V0, zeros_value. reflexivity. }
  assert (Imc : forall x, same n (image c x) x). { intros x i Hlt. rewrite (Ic x i Hlt). apply Hi, Hlt. }
  assert (Sh : dshift c = dshift e0).
  { rewrite S0. apply (nth_ext _ _ false false); [rewrite repeat_length; apply (wd_shift n c Wc)|]. rewrite (wd_shift n c Wc). intros i Hlt.
    specialize (Imc (fun _ => false) i Hlt). unfold image in Imc. rewrite (wd_n n c Wc) in Imc.
    assert (Pz : parity n (nth i (dlin c) []) (fun _ => false) = false).
    { unfold parity. generalize (seq 0 n). intros l. induction l as [|j l IHl]; [reflexivity|]. cbn. rewrite IHl, andb_false_r. reflexivity. }
    rewrite Pz, xorb_false_l in Imc. rewrite Imc. assert (Er : forall a0 j, nth j (repeat false a0) false = false) by (clear; induction a0; intros [|j]; cbn; auto). rewrite Er. reflexivity. }
  assert (Li : dlin c = dlin e0).
  { rewrite L0. apply (nth_ext _ _ [] []); [rewrite (wd_lin n c Wc); unfold eye; rewrite map_length, seq_length; reflexivity|]. rewrite (wd_lin n c Wc). intros i Hlt.
    pose proof (rows_len n c Wc i Hlt) as Lr. assert (Le : length (nth i (eye n) []) = n) by (unfold eye; rewrite nth_map_seq by exact Hlt; rewrite map_length, seq_length; reflexivity).
    apply (nth_ext _ _ false false); [congruence|]. rewrite Lr. intros j Hj. rewrite eye_nth by assumption.
    specialize (Imc (fun q => q =? j) i Hlt). unfold image in Imc. rewrite (wd_n n c Wc), Sh, S0 in Imc.
    assert (Er : forall a0 q, nth q (repeat false a0) false = false) by (clear; induction a0; intros [|q]; cbn; auto). rewrite Er, xorb_false_r in Imc.
    rewrite <- Imc. unfold parity. change (fold_right xorb false) with xsum.
    rewrite (xsum_ext _ (fun q => (q =? j) && nth j (nth i (dlin c) []) false)).
    - clear -Hj. rewrite (xsum_ext _ (fun q => nth j (nth i (dlin c) []) false && (q =? j))) by (intros; apply andb_comm). rewrite xsum_map_and.
      replace (xsum (map (fun a => a =? j) (seq 0 n))) with true; [rewrite andb_true_r; reflexivity|]. symmetry.
      assert (G : forall m s, s <= j -> j < s + m -> xsum (map (fun a => a =? j) (seq s m)) = true).
      { induction m as [|m IH]; intros s H1 H2; [lia|]. cbn. change (fold_right xorb false) with xsum. destruct (Nat.eqb_spec s j) as [->|Hne].
        - assert (Z : xsum (map (fun a => a =? j) (seq (S j) m)) = false).
          { clear. assert (G : forall b s, j < s -> xsum (map (fun a => a =? j) (seq s b)) = false).
            { induction b as [|b IH]; intros s Hs; [reflexivity|]. cbn. change (fold_right xorb false) with xsum. rewrite (IH (S s)) by lia. destruct (Nat.eqb_spec s j); [lia | reflexivity]. }
            apply G. lia. }
          unfold xsum in *. rewrite Z. reflexivity.
        - unfold xsum in *. rewrite (IH (S s)) by lia. reflexivity. }
      apply G; lia.
    - intros q _. destruct (Nat.eqb_spec q j) as [->|]; [rewrite andb_true_r; reflexivity | rewrite andb_false_r; reflexivity]. }
  destruct c as [cn cp cl cs], e0 as [en ep el es]. cbn in *. f_equal; try congruence. rewrite (wd_n _ _ Wc : cn = n). symmetry. exact (wd_n _ _ W0).
Qed.

Lemma adjoint_cancels det_odd n e : n <= 8 -> decides_invertible det_odd -> wf_cdi n e -> w0 (dpoly e) = 0%Z ->
  exists e', adjoint det_odd e = Ok e' /\ compose cpython_union e e' false = cdi_id n /\ compose cpython_union e' e false = cdi_id n.
Proof.
  intros Hn Hd W Z. destruct (adjoint_spec det_odd Hd n e W Z) as (e' & E & W' & Z' & Hi & g & Hp). exists e'. split; [exact E|]. split.
  - apply compose_identity; auto. exists g. exact Hp.
  - assert (Hr : forall y, same n (image e (image e' y)) y).
    { intros y. assert (X : same n (image e' (image e (image e' y))) (image e' y)) by apply Hi. apply (wd_inj n e' W'), X. }
    apply compose_identity; auto. exists g. intros y. rewrite <- (Hp (image e' y)). rewrite (phase_ext n e' _ _ W' (Hr y)). apply eq8_k with 0%Z. ring.
Qed.

Lemma random_onto det_odd n e : decides_invertible det_odd -> wf_cdi n e -> w0 (dpoly e) = 0%Z ->
  exists r1 r2 r3, random_cnotdihedral det_odd n r1 r2 r3 [dlin e] (dshift e) = Some (Ok e) /\
    Forall (fun c => 0 <= c < 8)%Z r1 /\ Forall (fun c => 0 <= c < 4)%Z r2 /\ Forall (fun c => 0 <= c < 2)%Z r3.
Proof.
  intros Hd W Z. pose proof (wd_poly n e W) as [P1 P2 P3 P4 _ R1 R2 R3]. pose proof (wd_special n e W) as [S2 S3].
  exists (w1 (dpoly e)), (map (fun c => c / 2)%Z (w2 (dpoly e))), (map (fun c => c / 4)%Z (w3 (dpoly e))). split; [|split; [|split]].
  - unfold random_cnotdihedral. cbn [find].
    rewrite (proj2 (Hd n (dlin e) (wd_lin n e W) (wd_rows n e W))).
    + destruct (id_spec n (wd_pos n e W)) as (e0 & -> & _ & P0 & _). cbn [bind]. rewrite P0. cbn [zeros w0]. f_equal. f_equal. rewrite !map_map.
      rewrite (map_ext_in _ (fun c => c)), map_id.
      2:{ intros c Hc. rewrite Forall_forall in S2. specialize (S2 c Hc). cbn beta in S2. pose proof (Z.div_mod c 2). lia. }
      rewrite (map_ext_in _ (fun c => c) (w3 (dpoly e))), map_id.
      2:{ intros c Hc. rewrite Forall_forall in S3. specialize (S3 c Hc). cbn beta in S3. pose proof (Z.div_mod c 4). lia. }
      pose proof (wd_n n e W) as Hn. clear -Z P1 Hn. destruct e as [m p l s]. destruct p. cbn in *. subst. reflexivity.
    + intros x y H. apply (wd_inj n e W). intros i Hi. unfold image. rewrite (wd_n n e W), (H i Hi). reflexivity.
  - exact R1.
  - apply Forall_forall. intros c Hc. apply in_map_iff in Hc as (c' & <- & Hc). rewrite Forall_forall in R2. specialize (R2 c' Hc). unfold reduced in R2.
    split; [apply Z.div_pos; lia | apply Z.div_lt_upper_bound; lia].
  - apply Forall_forall. intros c Hc. apply in_map_iff in Hc as (c' & <- & Hc). rewrite Forall_forall in R3. specialize (R3 c' Hc). unfold reduced in R3.
    split; [apply Z.div_pos; lia | apply Z.div_lt_upper_bound; lia].
Qed.
