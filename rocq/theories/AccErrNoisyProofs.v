(** What noisy trap circuits show. *)
From Coq Require Import QArith.
From Verif Require Import Base LinAlg ResultFacts QSem CountsModel DihedralModel RBSeqModel RBSeqSpec RBSeqActProofs StdGates AccModel AccSpec AccLayerProofs AccQotpProofs AccProbProofs AccTrapProofs AccErrSpec AccErrProofs AccErrTrapProofs AccErrShapeProofs.
Open Scope nat_scope.

(** ** Where the errors strike *)
Lemma faulty_nil n c : forall b, faulty n b [] c = c.
Proof. induction c as [|j c IH]; intros b; [reflexivity|]. cbn [faulty]. destruct j, b; rewrite IH; reflexivity. Qed.
Lemma faulty_one n a : Forall (one_qubit n) a -> forall es c, faulty n false es (a ++ c) = a ++ faulty n false es c.
Proof.
  induction 1 as [|j a Hj Ha IH]; intros es c; [reflexivity|]. cbn [app faulty]. f_equal. destruct j as [g|qs|q m]; [|rewrite <- IH; reflexivity|destruct Hj]. destruct Hj as (q & Hq & _).
  cbn [is_two]. rewrite Hq. cbn [length Nat.eqb]. apply IH.
Qed.
Lemma faulty_two n g2 l : Forall (two_ok g2 n) l -> l <> [] -> forall b e es qs c, faulty n b (e :: es) (l ++ CBarrier qs :: c) = l ++ CBarrier qs :: err_gates n e ++ faulty n false es c.
Proof.
  induction 1 as [|j l Hj Hl IH]; intros Hne b e es qs c; [congruence|]. destruct Hj as (a & t & -> & _). cbn [app faulty is_two gqubits length Nat.eqb]. f_equal. destruct l as [|j l]; [reflexivity|].
  assert (N : j :: l <> []) by discriminate. rewrite <- (IH N true e es qs c). destruct b; reflexivity.
Qed.
Lemma faulty_bar n es qs c : faulty n false es (CBarrier qs :: c) = CBarrier qs :: faulty n false es c.
Proof. reflexivity. Qed.
Lemma err_no_meas n e : measures (err_gates n e) = [].
Proof. unfold err_gates. induction (seq 0 n) as [|q l IH]; [reflexivity|]. cbn [flat_map]. rewrite !meas_app, IH. destruct (e q) as [[] []]; reflexivity. Qed.
Lemma faulty_meas n c : forall b es, measures (faulty n b es c) = measures c.
Proof.
  induction c as [|j c IH]; intros b es; [reflexivity|]. cbn [faulty]. destruct j as [g|qs|q m]; [apply IH| |cbn; f_equal; apply IH].
  destruct b; [|apply IH]. destruct es as [|e es]; [apply IH|]. change (measures (err_gates n e ++ faulty n false es c) = measures c). rewrite meas_app, err_no_meas. apply IH.
Qed.
Lemma filter_meas c : measures (filter (fun j => negb (is_measure j)) c) = [].
Proof. induction c as [|j c IH]; [reflexivity|]. destruct j; cbn; exact IH. Qed.
Lemma filter_no c : measures c = [] -> filter (fun j => negb (is_measure j)) c = c.
Proof. induction c as [|j c IH]; intros H; [reflexivity|]. destruct j; cbn in *; try discriminate; f_equal; auto. Qed.
Lemma filter_measures c : filter (fun j => negb (is_measure j)) (measures c) = [].
Proof. induction c as [|j c IH]; [reflexivity|]. destruct j; cbn; exact IH. Qed.
Lemma noisy_meas n prep es rd c : measures (noisy n prep es rd c) = measures c.
Proof. unfold noisy. rewrite !meas_app, !err_no_meas, faulty_meas, filter_meas, measures_idem. reflexivity. Qed.

Section Noisy.
Context {F : Type} {HF : Fld F}.
Add Field FldFieldN : fth.
Variable gmat : pystr -> list Q -> bits -> bits -> F.
Notation same_action := (same_action gmat).
Notation op_of := (op_of gmat).
Variables r i : F.
Hypothesis Hstd : std_gates gmat r i.
Notation ops_of l := (map op_of (gates l)).
Notation pauli := (pauli (F := F)).
Variable n : nat.
Notation zb := (zb n).
Notation xb := (xb n).
Local Open Scope fld_scope.
(** The list [a] with errors against the list [b] without. *)
Definition sim (a b : list cinstr) (f f' : error) : Prop :=
  exists k, k <> 0 /\ forall psi, eqa n (run (ops_of a) (pauli n (zb f) (xb f) psi)) (fun y => k * pauli n (zb f') (xb f') (run (ops_of b) psi) y).
Lemma sim_app a b c d f g h : sim a b f g -> sim c d g h -> sim (a ++ c) (b ++ d) f h.
Proof.
  intros (k & Hk & A) (l & Hl & B). exists (k * l). split; [apply fmul_neq_0; assumption|]. intros psi y Hy. rewrite !gates_app, !map_app, !run_app.
  rewrite (run_ext n _ _ _ (A psi) y Hy). rewrite (run_scale _ k (pauli n (zb g) (xb g) (run (ops_of b) psi)) n y Hy). rewrite (B _ y Hy). ring.
Qed.
Lemma sim_err e f : sim (err_gates n e) [] f (xe f e).
Proof.
  exists (StdGates.sgn (dot n (zb f) (xb e))). split; [apply sgn_neq0|]. intros psi y Hy. rewrite (run_err gmat r i Hstd n e _ y Hy). exact (pauli_xe n e f psi y Hy).
Qed.
Lemma sim_start e : sim (err_gates n e) [] (fun _ => (false, false)) e.
Proof.
  destruct (sim_err e (fun _ => (false, false))) as (k & Hk & H). exists k. split; [exact Hk|]. intros psi y Hy. rewrite (H psi y Hy).
  assert (Z : zb (xe (fun _ => (false, false)) e) = zb e) by (apply map_ext; intros q; unfold xe; cbn [fst snd]; destruct (fst (e q)); reflexivity).
  assert (X : xb (xe (fun _ => (false, false)) e) = xb e) by (apply map_ext; intros q; unfold xe; cbn [fst snd]; destruct (snd (e q)); reflexivity).
  rewrite Z, X. reflexivity.
Qed.
Lemma sim_gates c f : Forall (clif n) (gates c) -> sim c c f (frs (gates c) f).
Proof. intros H. exact (carry_all gmat r i Hstd n (gates c) H f). Qed.
Lemma sim_bar qs f : sim [CBarrier qs] [CBarrier qs] f f.
Proof. apply (sim_gates [CBarrier qs] f). constructor. Qed.
Lemma sim_same a b f f' : same_action n (gates a) (gates b) -> sim b b f f' -> sim a a f f'.
Proof.
  intros (k & Hk & A) (l & Hl & B). exists l. split; [exact Hl|]. intros psi y Hy. rewrite A by exact Hy. rewrite (B psi y Hy). unfold AccQotpProofs.pauli. rewrite A by (rewrite length_xors, len_xb; lia). ring.
Qed.
Lemma sim_pad z x f : sim (zx_gates n z x) (zx_gates n z x) f f /\ sim (xz_gates n z x) (xz_gates n z x) f f /\ sim (zs_gates n z) (zs_gates n z) f f.
Proof.
  assert (G : forall c, (forall g, In g (gates c) -> exists q, (q < n)%nat /\ (g = gq "x" [q] \/ g = gq "z" [q])) -> sim c c f f).
  { intros c H. assert (E : frs (gates c) f = f).
    { revert H. generalize (gates c). intros gs. induction gs as [|g gs IH]; intros H; [reflexivity|]. change (frs (g :: gs) f) with (frs gs (fr g f)). destruct (H g (or_introl eq_refl)) as (q & _ & [-> | ->]); (apply IH; intros g' Hg'; apply H; right; exact Hg'). }
    rewrite <- E at 2. apply sim_gates. apply Forall_forall. intros g Hg. destruct (H g Hg) as (q & Hq & Hx). left. exists q. split; [exact Hq|]. tauto. }
  assert (K : forall h, (forall q g, In g (gates (h q)) -> g = gq "x" [q] \/ g = gq "z" [q]) -> sim (flat_map h (seq 0 n)) (flat_map h (seq 0 n)) f f).
  { intros h Hh. apply G. intros g Hg. unfold gates in Hg. apply in_flat_map in Hg as (j & Hj & Hg). apply in_flat_map in Hj as (q & Hq & Hj). apply in_seq in Hq. exists q. split; [lia|]. apply (Hh q). apply in_flat_map. exists j. auto. }
  repeat split; apply K; intros q g Hg; [| |]; destruct (bit z q); try destruct (bit x q); cbn in Hg; repeat (destruct Hg as [<-|Hg]; [auto|]); try destruct Hg.
Qed.

Variable tp : list cinstr -> list cinstr.
Hypothesis Htp : transpiles gmat n tp.
Definition padding (t : list cinstr) : Prop := Forall (one_qubit n) t /\ forall f, sim t t f f.
Lemma sim_tp t s z x f : padding t -> Forall (one_qubit n) s -> Forall (clif n) (gates s) -> sim (tp (t ++ s ++ zx_gates n z x)) (tp (t ++ s ++ zx_gates n z x)) f (frs (gates s) f).
Proof.
  intros [Ht Pt] Hs Hc. assert (Ho : Forall (one_qubit n) (t ++ s ++ zx_gates n z x)) by (apply Forall_app; split; [exact Ht|apply Forall_app; split; [exact Hs|apply (pauli_gates_one n z x)]]).
  apply (sim_same _ _ _ _ (proj2 (Htp _ Ho))). apply (sim_app t t _ _ f f); [apply Pt|]. apply (sim_app s s _ _ f (frs (gates s) f)); [apply sim_gates, Hc|]. apply sim_pad.
Qed.
Lemma two_clif g2 l : g2 = str "cx" \/ g2 = str "cz" -> Forall (two_ok g2 n) l -> Forall (clif n) (gates l).
Proof.
  intros Hg. induction 1 as [|j l Hj Hl IH]; [constructor|]. destruct Hj as (c & t & -> & H). change (gates (CGate ?g :: l)) with (g :: gates l). constructor; [|exact IH]. right. exists c, t. split; [exact H|]. destruct Hg as [-> | ->]; auto.
Qed.
Lemma qotp_faulty rnd L : (ly_gate L = str "cx" \/ ly_gate L = str "cz") -> ly_n L = n -> forall twos singles k circ temp pos circ' temp' pos',
  (forall j, nth_error (ly_single L) (k + j) = nth_error singles j) ->
  Forall (Forall (one_qubit n)) singles -> Forall (fun s => Forall (clif n) (gates s)) singles -> Forall (layer2 (ly_gate L) n) twos -> Forall (fun t => t <> []) twos -> (length twos < length singles)%nat ->
  padding temp -> foldM (qotp_step tp rnd L) (combine (seq k (length twos)) twos) (circ, temp, pos) = Ok (circ', temp', pos') ->
  padding temp' /\ exists add, circ' = circ ++ add /\ measures add = [] /\ forall es f, length es = length twos -> exists bad,
    (forall rest, faulty n false es (add ++ rest) = bad ++ faulty n false [] rest) /\ sim bad add f (flow_upto singles twos es f).
Proof.
  intros Hg Hn. induction twos as [|two twos IH]; intros singles k circ temp pos circ' temp' pos' Hs H1 Hc H2 Hne Hlen Ht E.
  - cbn in E. injection E as <- <- <-. split; [exact Ht|]. exists []. rewrite app_nil_r. split; [reflexivity|split; [reflexivity|]]. intros [|e es] f Hes; [|discriminate]. exists []. split; [reflexivity|]. replace (flow_upto singles [] [] f) with f by (destruct singles; reflexivity). apply (sim_gates [] f). constructor.
  - cbn [length seq combine foldM] in E. inv_bind E. destruct singles as [|single singles]; [cbn in Hlen; lia|].
    destruct v as [[circ1 temp1] pos1]. cbn [qotp_step fst snd] in E0. inv_bind E0.
    assert (Ev : v = single). { unfold index_e in E1. specialize (Hs 0%nat). rewrite Nat.add_0_r in Hs. cbn in Hs. rewrite Hs in E1. congruence. } subst v.
    inv_bind E0. destruct v as [z' x']. cbn [fst snd] in E0. injection E0 as <- <- <-. rewrite Hn in *.
    apply Forall_cons_iff in H1. destruct H1 as [Hs1 H1]. apply Forall_cons_iff in H2. destruct H2 as [Ht1 H2]. apply Forall_cons_iff in Hc. destruct Hc as [Hc1 Hc]. apply Forall_cons_iff in Hne. destruct Hne as [Hne1 Hne].
    assert (Htemp : Forall (one_qubit n) (temp ++ single ++ zx_gates n (draw rnd pos n) (draw rnd (pos + n) n))).
    { apply Forall_app; split; [exact (proj1 Ht)|]. apply Forall_app; split; [exact Hs1|]. apply (pauli_gates_one n _ (draw rnd (pos + n) n)). }
    set (T := tp (temp ++ single ++ zx_gates n (draw rnd pos n) (draw rnd (pos + n) n))) in *.
    assert (HT : Forall (one_qubit n) T) by (apply Htp, Htemp).
    pose proof (fun a b c d g h w => IH singles (S k) _ _ _ circ' temp' pos' a b c d g h w E) as IHE. destruct IHE as (P & add & -> & Ma & Hf).
    + intros j. pose proof (Hs (S j)) as Hj. cbn [nth_error] in Hj. rewrite <- Hj. f_equal. lia.
    + exact H1.
    + exact Hc.
    + exact H2.
    + exact Hne.
    + cbn in Hlen. lia.
    + split; [apply (pauli_gates_one n z' x')|intros f; apply sim_pad].
    + split; [exact P|]. exists (T ++ [CBarrier (seq 0 n)] ++ two ++ [CBarrier (seq 0 n)] ++ add). split; [rewrite <- !app_assoc; cbn [app]; rewrite <- !app_assoc; reflexivity|].
      split; [rewrite !meas_app, Ma, (one_no_meas n _ HT), (two_no_meas n _ _ (layer2_ok _ _ _ Ht1)); reflexivity|].
      intros es f Hes. destruct es as [|e es]; [discriminate|]. injection Hes as Hes. cbn [flow_upto].
      destruct (Hf es (xe (frs (gates two) (frs (gates single) f)) e) Hes) as (bad & Hb & Hsim).
      exists (T ++ [CBarrier (seq 0 n)] ++ two ++ [CBarrier (seq 0 n)] ++ err_gates n e ++ bad). split.
      * intros rest. rewrite <- !app_assoc. rewrite faulty_one by exact HT. f_equal. cbn [app]. rewrite faulty_bar. f_equal. rewrite (faulty_two n (ly_gate L) two (layer2_ok _ _ _ Ht1) Hne1). rewrite Hb. reflexivity.
      * apply (sim_app T T _ _ f (frs (gates single) f)); [apply sim_tp; assumption|]. apply (sim_app _ _ _ _ _ (frs (gates single) f)); [apply sim_bar|]. apply (sim_app two two _ _ _ (frs (gates two) (frs (gates single) f))); [apply sim_gates, (two_clif (ly_gate L)); [exact Hg|apply layer2_ok, Ht1]|].
        apply (sim_app _ _ _ _ _ (frs (gates two) (frs (gates single) f))); [apply sim_bar|]. apply (sim_app (err_gates n e) [] bad add _ (xe (frs (gates two) (frs (gates single) f)) e)); [apply sim_err|exact Hsim].
Qed.
Lemma last_in {A} (l : list A) d P : Forall P l -> l <> [] -> P (last l d).
Proof. intros H Hl. rewrite Forall_forall in H. apply H. rewrite (app_removelast_last d Hl) at 2. apply in_or_app. right. left. reflexivity. Qed.
Lemma qotp_noisy rnd L pos circ postp pos' ops prep es rd : (ly_gate L = str "cx" \/ ly_gate L = str "cz") -> good_layers n L -> Forall (fun s => Forall (clif n) (gates s)) (ly_single L) -> Forall (fun t => t <> []) (ly_two L) ->
  ly_meas L = measures ops -> length es = length (ly_two L) -> qotp_fromlayers tp rnd pos L = Ok (circ, postp, pos') ->
  exists k, k <> 0 /\ let fe := xe (frs (gates (last (ly_single L) [])) (flow_upto (ly_single L) (ly_two L) es (flipped prep))) (flipped rd) in
    forall y, length y = n -> final gmat n (noisy n prep es rd circ) y = k * pauli n (zb fe) (xb fe) (final gmat n circ) y.
Proof.
  intros Hg [Gn Gs Gt Gl] Hc Hne Em Hes E. unfold qotp_fromlayers in E. inv_bind E. destruct v as [[c1 t1] p1]. inv_bind E. rewrite Gn in *. injection E as <- _ _.
  assert (Hl : ly_single L <> []) by (intros E; rewrite E in Gl; discriminate).
  assert (Ev : v = last (ly_single L) []). { destruct (ly_single L); [discriminate|]. injection E1 as <-. reflexivity. } subst v.
  destruct (qotp_faulty rnd L Hg Gn (ly_two L) (ly_single L) 0 [] (zs_gates n (draw rnd pos n)) (pos + n)%nat c1 t1 p1) as (P1 & add & -> & Ma & Hf); auto; [lia|split; [apply (pauli_gates_one n _ []) | intros f; apply (sim_pad _ [])]|].
  set (T := tp (t1 ++ last (ly_single L) [] ++ zx_gates n (draw rnd p1 n) (draw rnd (p1 + n) n))).
  assert (Ho : Forall (one_qubit n) T). { apply Htp. apply Forall_app; split; [apply P1|]. apply Forall_app; split; [apply (last_in _ _ _ Gs Hl)|apply (pauli_gates_one n _ (draw rnd (p1 + n) n))]. }
  destruct (Hf es (flipped prep) Hes) as (bad & Hb & Hsim). cbn [app].
  assert (En : noisy n prep es rd (add ++ T ++ ly_meas L) = err_gates n (flipped prep) ++ (bad ++ T) ++ err_gates n (flipped rd) ++ measures (add ++ T ++ ly_meas L)).
  { unfold noisy. f_equal. f_equal. rewrite !filter_app, Em, filter_measures, app_nil_r. rewrite (filter_no add Ma), (filter_no T (one_no_meas n _ Ho)). rewrite Hb, faulty_nil. reflexivity. }
  assert (S : sim (err_gates n (flipped prep) ++ (bad ++ T) ++ err_gates n (flipped rd)) ([] ++ (add ++ T) ++ []) (fun _ => (false, false)) (xe (frs (gates (last (ly_single L) [])) (flow_upto (ly_single L) (ly_two L) es (flipped prep))) (flipped rd))).
  { apply (sim_app _ _ _ _ _ (flipped prep)); [apply sim_start|]. eapply sim_app; [|apply sim_err]. eapply sim_app; [exact Hsim|]. apply sim_tp; [exact P1|apply (last_in _ _ _ Gs Hl)|apply (last_in _ [] _ Hc Hl)]. }
  destruct S as (k & Hk & S). exists k. split; [exact Hk|]. cbv zeta. intros y Hy. unfold final. rewrite En.
  assert (Eg : gates (add ++ T ++ ly_meas L) = gates (add ++ T)) by (rewrite Em, !gates_app, gates_measures, app_nil_r; reflexivity). rewrite Eg.
  assert (Eg2 : forall A B C w, gates (A ++ B ++ C ++ measures w) = gates (A ++ B ++ C)) by (intros; rewrite !gates_app, gates_measures, app_nil_r; reflexivity). rewrite Eg2.
  specialize (S (ground n) y Hy). cbn [app] in S. rewrite app_nil_r in S. 
  rewrite <- S. symmetry. apply (run_ext n); [|exact Hy]. intros w Hw. unfold AccQotpProofs.pauli.
  replace (xors w (xb (fun _ => (false, false)))) with w by (apply bits_ext; [rewrite length_xors, len_xb; lia|]; intros j Hj; rewrite nth_xors by (rewrite len_xb; lia); unfold AccErrProofs.xb; rewrite bit_map by lia; cbn; rewrite xorb_false_r; reflexivity).
  replace (dot n (zb (fun _ => (false, false))) w) with false; [cbn; ring|]. rewrite dot_comm. rewrite <- (dot_repeat n w) at 1. f_equal. unfold AccErrProofs.zb. cbn. clear. induction n as [|m IH]; [reflexivity|]. rewrite seq_S, map_app, <- IH. cbn. apply repeat_cons.
Qed.
End Noisy.
