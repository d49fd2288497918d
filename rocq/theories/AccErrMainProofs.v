(** Trap circuits detect errors. *)
From Coq Require Import QArith.
From Verif Require Import Base LinAlg ResultFacts QSem CountsModel DihedralModel RBSeqModel RBSeqSpec RBSeqActProofs StdGates AccModel AccSpec AccLayerProofs AccQotpProofs AccProbProofs AccTrapProofs AccErrSpec AccErrProofs AccErrTrapProofs AccErrShapeProofs AccErrNoisyProofs.
Open Scope nat_scope.

(** ** Parsed layers are not empty *)
Definition p_ok (s : pstate) : Prop := (p_cur s <> [] -> p_two s <> []) /\ Forall (fun d => snd d <> []) (p_done s).
Lemma app_ne {A} (a : list A) x : a ++ [x] <> []. Proof. destruct a; discriminate. Qed.
Lemma new_ok s : p_ok s -> p_cur s <> [] -> p_ok (new_layer s).
Proof. intros [A B] H. split; [cbn; congruence|]. cbn. apply Forall_app. split; [exact B|]. constructor; [exact (A H)|constructor]. Qed.
Lemma step_ok g2 s j s' : p_ok s -> parse_step g2 s j = Ok s' -> p_ok s'.
Proof.
  intros P E. destruct j as [g|qs|q m]; cbn [parse_step] in E.
  - destruct (eqb (gname g) (str "u1") || eqb (gname g) (str "u2") || eqb (gname g) (str "u3")).
    + inv_bind E. injection E as <-. destruct (mem v (p_cur s)); exact P.
    + destruct (eqb (gname g) (str "cx")); [|discriminate]. inv_bind E. inv_bind E. inv_bind E. injection E as <-.
      assert (P' : p_ok (if mem v (p_cur s) || mem v0 (p_cur s) then new_layer s else s)).
      { destruct (mem v (p_cur s) || mem v0 (p_cur s)) eqn:M; [|exact P]. apply new_ok; [exact P|]. intros C. rewrite C in M. discriminate. }
      revert E2 P'. generalize (if mem v (p_cur s) || mem v0 (p_cur s) then new_layer s else s). intros s0 E2 [A B].
      destruct (eqb g2 (str "cx")); [injection E2 as <-; split; [intros _; apply app_ne|exact B]|]. destruct (eqb g2 (str "cz")); [injection E2 as <-; split; [intros _; apply app_ne|exact B]|discriminate].
  - injection E as <-. destruct (p_cur s) eqn:C; [exact P|]. apply (new_ok s P). congruence.
  - injection E as <-. exact P.
Qed.
Lemma parsed_ne tp g2 n ops L : layer_parser tp g2 n ops = Ok L -> Forall (fun t => t <> []) (ly_two L).
Proof.
  intros E. unfold layer_parser in E. inv_bind E. injection E as <-. cbn [ly_two].
  assert (P : p_ok v). { assert (G : forall ops s s', p_ok s -> foldM (parse_step g2) ops s = Ok s' -> p_ok s'). { clear. induction ops as [|j ops IH]; intros s s' P E; [injection E as <-; exact P|]. cbn [foldM] in E. inv_bind E. apply (IH _ _ (step_ok _ _ _ _ P E0) E). } apply (G ops p_init v); [split; [cbn; congruence|constructor]|exact E0]. }
  destruct P as [A B]. apply Forall_app. split; [apply Forall_map; exact B|]. destruct (p_cur v); [constructor|]. constructor; [apply A; discriminate|constructor].
Qed.

(** ** The gates of traps *)
Section Clif.
Variable n : nat.
Variable g2 : pystr.
Hypothesis Hg2 : g2 = str "cx" \/ g2 = str "cz".
Lemma loc_clif u b : okl u -> (forall j, In j (sup u) -> j < n) -> Forall (clif n) (own_l g2 b u) /\ Forall (clif n) (inv_l g2 b u).
Proof.
  intros Ho Hs. assert (G : forall nm q, In q (sup u) -> (nm = "h"%string \/ nm = "s"%string \/ nm = "sdg"%string) -> clif n (gq nm [q])) by (intros nm q Hq Hn; left; exists q; split; [apply Hs, Hq|]; destruct Hn as [-> | [-> | ->]]; auto).
  destruct Hg2 as [-> | ->]; destruct u as [a c|a], b; split; unfold own_l, inv_l; cbn [trap_pair trap_idle fst snd gates flat_map app];
  change (eqb (str "cx") (str "cx")) with true; change (eqb (str "cz") (str "cx")) with false; change (eqb (str "cz") (str "cz")) with true; cbn;
  repeat (apply Forall_cons; [first [apply (G "h"%string a) | apply (G "s"%string a) | apply (G "sdg"%string a) | apply (G "h"%string c) | apply (G "s"%string c) | apply (G "sdg"%string c)]; cbn; auto|]); apply Forall_nil.
Qed.
Lemma blk_clif (h : bool -> loc -> list ginstr) ls : Forall (fun u => forall b, Forall (clif n) (h b u)) ls -> forall bs, Forall (clif n) (blk h bs ls).
Proof. induction 1 as [|u ls Hu Hls IH]; intros [|b bs]; try constructor. cbn [blk]. apply Forall_app. split; [apply Hu|apply IH]. Qed.
Lemma locs_clif l : layer2 g2 n l -> forall bs, Forall (clif n) (blk (own_l g2) bs (locs n l)) /\ Forall (clif n) (blk (inv_l g2) bs (locs n l)).
Proof.
  intros Hl bs. destruct (locs_good n g2 l Hl) as (_ & Ho & Hc). rewrite Forall_forall in Ho.
  assert (K : forall u, In u (locs n l) -> forall j, In j (sup u) -> j < n) by (intros u Hu j Hj; apply Hc, in_flat_map; exists u; auto).
  split; apply blk_clif, Forall_forall; intros u Hu b; apply (loc_clif u b (Ho u Hu) (K u Hu)).
Qed.
Lemma traps_clif L rnd : ly_gate L = g2 -> ly_n L = n -> forall twos done cur pos done' cur' pos', Forall (layer2 g2 n) twos -> foldM (trap_layer L rnd) twos (done, cur, pos) = Ok (done', cur', pos') ->
  Forall (fun s => Forall (clif n) (gates s)) done -> Forall (clif n) (gates cur) -> Forall (fun s => Forall (clif n) (gates s)) done' /\ Forall (clif n) (gates cur').
Proof.
  intros Eg En. induction twos as [|l twos IH]; intros done cur pos done' cur' pos' H2 E Hd Hc.
  - cbn in E. injection E as <- <- <-. auto.
  - cbn [foldM] in E. inv_bind E. destruct v as [[done1 cur1] pos1]. apply Forall_cons_iff in H2 as [Hl H2]. destruct (layer_shape n g2 Hg2 L rnd _ _ _ _ _ _ _ Eg En Hl E0) as (own & -> & Go & Gi & ->).
    apply (IH _ _ _ _ _ _ H2 E).
    + apply Forall_app. split; [exact Hd|]. constructor; [|constructor]. rewrite Go. apply Forall_app. split; [exact Hc|apply locs_clif, Hl].
    + rewrite Gi. apply locs_clif, Hl.
Qed.
Lemma had_clif : Forall (clif n) (gates (map had (seq 0 n))).
Proof. apply Forall_forall. intros g Hg. apply in_flat_map in Hg as (j & Hj & Hg). apply in_map_iff in Hj as (q & <- & Hq). apply in_seq in Hq. destruct Hg as [<-|[]]. left. exists q. split; [lia|auto]. Qed.
Lemma routine_clif L rnd pos singles pos' : ly_gate L = g2 -> good_layers n L -> routine_two L rnd pos = Ok (singles, pos') -> Forall (fun s => Forall (clif n) (gates s)) singles.
Proof.
  intros Eg [Gn Gs Gt Gl] E. unfold routine_two in E. inv_bind E. destruct v as [[done cur] pos1]. injection E as <- <-. rewrite Gn in *. rewrite Eg in Gt.
  assert (Hh : Forall (clif n) (gates (if rnd pos then map had (seq 0 n) else []))) by (destruct (rnd pos); [apply had_clif|constructor]).
  destruct (traps_clif L rnd Eg Gn _ _ _ _ _ _ _ Gt E0 (Forall_nil _) Hh) as [A B]. apply Forall_app. split; [exact A|]. constructor; [|constructor]. rewrite gates_app. apply Forall_app. auto.
Qed.
End Clif.

Section Main.
Context {F : Type} {HF : Fld F}.
Add Field FldFieldM : fth.
Variable gmat : pystr -> list Q -> bits -> bits -> F.
Variables r i : F.
Hypothesis Hstd : std_gates gmat r i.
Variable n : nat.
Variable tp : list cinstr -> list cinstr.
Hypothesis Htp : transpiles gmat n tp.

(** The corrected outcome of a trap circuit whose choices are [bs]. *)
Definition outcome (L : layers) (prep : nat -> bool) (es : list error) (rd : nat -> bool) (bs : bits) : pystr :=
  key_of (xb n (xe (shown (ly_gate L) n (map (locs n) (ly_two L)) es prep bs) (flipped rd))).
Definition draws (L : layers) : nat := S (total (map (locs n) (ly_two L))).
Theorem noisy_trap g2 ops L rnd pos singles pos1 circ postp pos2 prep es rd : Forall (native n) ops -> measures_all n ops -> g2 = str "cx" \/ g2 = str "cz" ->
  layer_parser tp g2 n ops = Ok L -> length es = length (ly_two L) -> routine_two L rnd pos = Ok (singles, pos1) -> qotp_fromlayers tp rnd pos1 (trap_layers L singles) = Ok (circ, postp, pos2) ->
  (exists key, possible gmat n n (noisy n prep es rd circ) key) /\
  forall key, possible gmat n n (noisy n prep es rd circ) key -> is_key n key /\ shift_key key postp = outcome L prep es rd (draw rnd pos (draws L)).
Proof.
  intros Hn Hm Hg El Hes Er Eq. destruct (parsed_good gmat r i Hstd tp n Htp g2 ops L Hn El) as (G & Em & Egt & _). rewrite <- Egt in Hg.
  destruct (trap_shown n (ly_gate L) Hg L rnd pos singles pos1 eq_refl G Er) as [Ep Hs].
  destruct (routine_two_action gmat r i Hstd n L rnd pos singles pos1 G Er) as [G' _].
  destruct (trap_outcome gmat r i Hstd n tp Htp L ops rnd pos singles pos1 circ postp pos2 G Em Er Eq) as (xs & Lx & -> & Mc & Hf).
  destruct (qotp_noisy gmat r i Hstd n tp Htp rnd (trap_layers L singles) pos1 circ (rev xs) pos2 ops prep es rd) as (k & Hk & Hy); auto.
  { apply (routine_clif n (ly_gate L) Hg L rnd pos singles pos1 eq_refl G Er). }
  { apply (parsed_ne _ _ _ _ _ El). }
  cbn [trap_layers ly_single ly_two] in Hy. rewrite (Hs es prep Hes) in Hy. unfold outcome, draws.
  set (fe := xe (shown (ly_gate L) n (map (locs n) (ly_two L)) es prep (draw rnd pos (S (total (map (locs n) (ly_two L)))))) (flipped rd)) in *. cbv zeta in Hy.
  assert (Lb : length (xb n fe) = n) by apply len_xb.
  assert (Ly : forall y, length y = n -> (final gmat n (noisy n prep es rd circ) y <> f0 <-> y = xors xs (xb n fe))).
  { intros y Hl. rewrite (Hy y Hl). unfold pauli. assert (Lxy : length (xors y (xb n fe)) = n) by (rewrite length_xors; lia). split.
    - intros H. assert (N : final gmat n circ (xors y (xb n fe)) <> f0) by (intros E0; apply H; rewrite E0; ring). apply Hf in N; [|exact Lxy]. rewrite <- N. symmetry. apply xors_xors. lia.
    - intros ->. repeat apply fmul_neq_0; auto using sgn_neq0. rewrite xors_xors by lia. apply Hf; auto. }
  assert (Mn : measures (noisy n prep es rd circ) = measures ops) by (rewrite noisy_meas; exact Mc).
  assert (Lxx : length (xors xs (xb n fe)) = n) by (rewrite length_xors; lia).
  pose proof (fun key => possible_trap gmat n (noisy n prep es rd circ) ops _ key Hm Mn Lxx Ly) as P. split; [exists (key_of (xors xs (xb n fe))); apply P; reflexivity|].
  intros key Hp. apply P in Hp. subst key. split; [exists (xors xs (xb n fe)); auto|]. rewrite shift_key_of by lia. f_equal.
  apply bits_ext; [rewrite length_xors; lia|]. intros j Hj. rewrite length_xors in Hj. rewrite !nth_xors by lia. destruct (nth j xs false), (nth j (xb n fe) false); reflexivity.
Qed.
Lemma draw_chosen rnd pos bs : draw (chosen rnd pos bs) pos (length bs) = bs.
Proof.
  apply bits_ext; [apply length_draw|]. intros j Hj. rewrite length_draw in Hj. unfold draw. rewrite (nth_indep _ false (chosen rnd pos bs 0)) by (rewrite map_length, seq_length; exact Hj). rewrite map_nth, seq_nth by exact Hj. unfold chosen.
  destruct (Nat.leb_spec pos (pos + j)); [|lia]. destruct (Nat.ltb_spec (pos + j) (pos + length bs)); [|lia]. cbn [andb]. f_equal. lia.
Qed.
Lemma outcome_zero L prep es bs : outcome L prep es (fun _ => false) bs = repeat ch0 n <-> silent n (shown (ly_gate L) n (map (locs n) (ly_two L)) es prep bs) = true.
Proof.
  unfold outcome. set (s := shown _ _ _ _ _ _). rewrite silent_iff.
  assert (E : xb n (xe s (flipped (fun _ => false))) = xb n s) by (apply map_ext; intros q; cbn; apply xorb_false_r). rewrite E.
  assert (Z : key_of (repeat false n) = repeat ch0 n) by (unfold key_of; clear; induction n as [|m IH]; [reflexivity|]; cbn [repeat rev]; rewrite map_app, IH; cbn; symmetry; apply repeat_cons).
  split.
  - intros H j Hj. rewrite <- Z in H. assert (B : xb n s = repeat false n).
    { unfold key_of in H. assert (R : rev (xb n s) = rev (repeat false n)). { revert H. generalize (rev (xb n s)) (rev (repeat false n)). clear. intros a. induction a as [|x a IH]; intros [|y b] H; try discriminate; [reflexivity|]. cbn in H. injection H as H1 H2. f_equal; [destruct x, y; congruence|apply IH, H2]. }
      rewrite <- (rev_involutive (xb n s)), R. apply rev_involutive. }
    pose proof (f_equal (fun l => nth j l false) B) as Bj. cbn beta in Bj. unfold xb in Bj. rewrite bit_map, nth_repeat in Bj by exact Hj. exact Bj.
  - intros H. rewrite <- Z. f_equal. apply bits_ext; [rewrite len_xb, repeat_length; reflexivity|]. intros j Hj. rewrite len_xb in Hj. unfold xb. rewrite bit_map, nth_repeat by exact Hj. apply H, Hj.
Qed.
(** Whatever errors strike, at least a quarter of the choices of a trap detects them. *)
Theorem traps_detect g2 ops L prep es : Forall (native n) ops -> measures_all n ops -> g2 = str "cx" \/ g2 = str "cz" ->
  layer_parser tp g2 n ops = Ok L -> length es = length (ly_two L) -> Exists (nontrivial n) es ->
  exists d (shows : bits -> pystr),
    (forall rnd pos bs, length bs = d -> exists singles circ postp pos2,
      routine_two L (chosen rnd pos bs) pos = Ok (singles, pos + d) /\ qotp_fromlayers tp (chosen rnd pos bs) (pos + d) (trap_layers L singles) = Ok (circ, postp, pos2) /\
      (exists key, possible gmat n n (noisy n prep es (fun _ => false) circ) key) /\
      forall key, possible gmat n n (noisy n prep es (fun _ => false) circ) key -> is_key n key /\ shift_key key postp = shows bs) /\
    2 ^ d <= 4 * length (filter (fun bs => negb (eqb (shows bs) (repeat ch0 n))) (cube d)).
Proof.
  intros Hn Hm Hg El Hes He. exists (draws L), (outcome L prep es (fun _ => false)).
  destruct (parsed_good gmat r i Hstd tp n Htp g2 ops L Hn El) as (G & Em & Egt & _). assert (Hg' := Hg). rewrite <- Egt in Hg'. split.
  - intros rnd pos bs Hb. destruct (routine_two_total n L (chosen rnd pos bs) pos G Hg') as [[singles pos1] Er].
    destruct (trap_shown n (ly_gate L) Hg' L _ pos singles pos1 eq_refl G Er) as [Ep _]. fold (draws L) in Ep. subst pos1.
    destruct (routine_two_action gmat r i Hstd n L _ pos singles _ G Er) as [G' _].
    assert (T : exists c, qotp_fromlayers tp (chosen rnd pos bs) (pos + draws L) (trap_layers L singles) = Ok c) by (apply (qotp_fromlayers_total tp n _ _ _ G' Hg')).
    destruct T as [[[circ postp] pos2] Eq]. exists singles, circ, postp, pos2. split; [exact Er|split; [exact Eq|]].
    destruct (noisy_trap g2 ops L _ pos singles _ circ postp pos2 prep es (fun _ => false) Hn Hm Hg El Hes Er Eq) as [A B]. rewrite <- Hb, draw_chosen in B. rewrite <- Hb in *. auto.
  - pose proof (quarter (ly_gate L) n (map (locs n) (ly_two L)) es prep Hg') as Q. fold (draws L) in Q. eapply Nat.le_trans; [apply Q|].
    + apply Forall_map. destruct G as [_ _ Gt _]. eapply Forall_impl; [|exact Gt]. intros l Hl. apply (locs_good n (ly_gate L)), Hl.
    + rewrite map_length. exact Hes.
    + exact He.
    + unfold count. apply Nat.mul_le_mono_l. apply Nat.eq_le_incl. f_equal. apply filter_ext. intros bs. f_equal. destruct (eqb_spec (outcome L prep es (fun _ => false) bs) (repeat ch0 n)) as [E|E].
      * apply outcome_zero, E.
      * destruct (silent n _) eqn:S; [|reflexivity]. apply outcome_zero in S. contradiction.
Qed.
End Main.

(** ** Two qubits and one gate *)
Definition ops2 : list cinstr := [CGate {| gname := str "cx"; gparams := []; gqubits := [0; 1] |}; CMeasure 0 0; CMeasure 1 1].
Definition on1 (q : nat) : bool := q =? 1.
Definition z_on (b : bool) : error := fun q => (if q =? 0 then true else b, false).
Lemma ops2_native : Forall (native 2) ops2.
Proof. constructor; [|repeat constructor]. right. split; [reflexivity|]. split; [reflexivity|]. exists 0, 1. repeat split; auto. Qed.
Lemma ops2_measures : measures_all 2 ops2.
Proof.
  split; [intros q c H; cbn in H; repeat (destruct H as [H|H]; [try discriminate; injection H as <- <-; auto|]); destruct H|].
  intros [|[|q]] H; cbn; [auto|auto|lia].
Qed.
Section Two.
Context {F : Type} {HF : Fld F}.
Variable gmat : pystr -> list Q -> bits -> bits -> F.
Variables r i : F.
Hypothesis Hstd : std_gates gmat r i.
Variable tp : list cinstr -> list cinstr.
Hypothesis Htp : transpiles gmat 2 tp.
Lemma two_outcome g2 rnd pos b prep rd : g2 = str "cx" \/ g2 = str "cz" -> exists L, layer_parser tp g2 2 ops2 = Ok L /\ length (ly_two L) = 1 /\
  outcome 2 L prep [z_on b] rd (draw rnd pos (draws 2 L)) = outcome 2 {| ly_single := []; ly_two := [[CGate {| gname := g2; gparams := []; gqubits := [0; 1] |}]]; ly_meas := []; ly_gate := g2; ly_n := 2 |} prep [z_on b] rd [rnd pos; rnd (S pos)].
Proof. intros [-> | ->]; eexists; (split; [reflexivity|]); split; reflexivity. Qed.
Lemma readout_hides g2 : g2 = str "cx" \/ g2 = str "cz" -> exists L prep e rd, layer_parser tp g2 2 ops2 = Ok L /\ length (ly_two L) = 1 /\ nontrivial 2 e /\
  forall rnd pos singles pos1 circ postp pos2, routine_two L rnd pos = Ok (singles, pos1) -> qotp_fromlayers tp rnd pos1 (trap_layers L singles) = Ok (circ, postp, pos2) ->
    (exists key, possible gmat 2 2 (noisy 2 prep [e] rd circ) key) /\ forall key, possible gmat 2 2 (noisy 2 prep [e] rd circ) key -> shift_key key postp = repeat ch0 2.
Proof.
  intros Hg. destruct (two_outcome g2 (fun _ => true) 0 false on1 on1 Hg) as (L & E & Hl & _). exists L, on1, (z_on false), on1. split; [exact E|]. split; [exact Hl|]. split; [exists 0; split; [lia|discriminate]|].
  intros rnd pos singles pos1 circ postp pos2 Er Eq. destruct (noisy_trap gmat r i Hstd 2 tp Htp g2 ops2 L rnd pos singles pos1 circ postp pos2 on1 [z_on false] on1 ops2_native ops2_measures Hg E (eq_sym Hl) Er Eq) as [A B]. split; [exact A|].
  intros key Hk. destruct (B key Hk) as [_ ->]. destruct (two_outcome g2 rnd pos false on1 on1 Hg) as (L' & E' & _ & Eo). rewrite E in E'. injection E' as <-. rewrite Eo. destruct Hg as [-> | ->]; destruct (rnd pos), (rnd (S pos)); vm_compute; reflexivity.
Qed.
Lemma quarter_tight : exists L prep e, layer_parser tp (str "cx") 2 ops2 = Ok L /\ length (ly_two L) = 1 /\ nontrivial 2 e /\
  forall rnd pos singles pos1 circ postp pos2, routine_two L rnd pos = Ok (singles, pos1) -> qotp_fromlayers tp rnd pos1 (trap_layers L singles) = Ok (circ, postp, pos2) ->
    (exists key, possible gmat 2 2 (noisy 2 prep [e] (fun _ => false) circ) key) /\ forall key, possible gmat 2 2 (noisy 2 prep [e] (fun _ => false) circ) key -> (shift_key key postp <> repeat ch0 2 <-> rnd pos = false /\ rnd (S pos) = false).
Proof.
  assert (Hg : str "cx" = str "cx" \/ str "cx" = str "cz") by auto. destruct (two_outcome (str "cx") (fun _ => true) 0 true on1 on1 Hg) as (L & E & Hl & _). exists L, on1, (z_on true). split; [exact E|]. split; [exact Hl|]. split; [exists 0; split; [lia|discriminate]|].
  intros rnd pos singles pos1 circ postp pos2 Er Eq. destruct (noisy_trap gmat r i Hstd 2 tp Htp (str "cx") ops2 L rnd pos singles pos1 circ postp pos2 on1 [z_on true] (fun _ => false) ops2_native ops2_measures Hg E (eq_sym Hl) Er Eq) as [A B]. split; [exact A|].
  intros key Hk. destruct (B key Hk) as [_ ->]. destruct (two_outcome (str "cx") rnd pos true on1 (fun _ => false) Hg) as (L' & E' & _ & Eo). rewrite E in E'. injection E' as <-. rewrite Eo.
  destruct (rnd pos), (rnd (S pos)); match goal with |- ?o <> _ <-> _ => let v := eval vm_compute in o in change o with v end; (split; [intros H; try (exfalso; apply H; reflexivity); auto|intros [H1 H2]; try discriminate]).
Qed.
End Two.
