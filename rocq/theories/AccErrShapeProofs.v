(** The gates of a trap circuit, location by location, and counting its choices. *)
From Coq Require Import QArith.
From Verif Require Import Base LinAlg ResultFacts QSem CountsModel DihedralModel RBSeqModel RBSeqSpec StdGates AccModel AccSpec AccLayerProofs AccQotpProofs AccTrapProofs AccErrSpec AccErrProofs AccErrTrapProofs.
Open Scope nat_scope.

Definition pr (i : cinstr) : loc := match i with CGate g => Pr (nth 0 (gqubits g) 0) (nth 1 (gqubits g) 0) | _ => Idl 0 end.
Definition idles (regs qs : list nat) : list loc := map Idl (filter (fun q => negb (mem q regs)) qs).
Definition locs (n : nat) (l : list cinstr) : list loc := map pr l ++ idles (qs_of l) (seq 0 n).

Lemma draw_app rnd pos a b : draw rnd pos (a + b) = draw rnd pos a ++ draw rnd (pos + a) b.
Proof. unfold draw. rewrite seq_app, map_app. reflexivity. Qed.
Lemma blk_app h ls1 ls2 : forall bs1 bs2, length bs1 = length ls1 -> blk h (bs1 ++ bs2) (ls1 ++ ls2) = blk h bs1 ls1 ++ blk h bs2 ls2.
Proof. induction ls1 as [|u ls1 IH]; intros [|b bs1] bs2 H; try discriminate; [reflexivity|]. cbn [app blk]. rewrite IH by (injection H; auto). rewrite app_assoc. reflexivity. Qed.
Section Shape.
Variable n : nat.
Variable g2 : pystr.
Hypothesis Hg2 : g2 = str "cx" \/ g2 = str "cz".
Lemma pair_ok b q0 q1 : exists p, trap_pair g2 b q0 q1 = Ok p.
Proof. unfold trap_pair. destruct Hg2 as [-> | ->]; eexists; reflexivity. Qed.
Lemma gates_shape rnd l : Forall (two_ok g2 n) l -> forall own inv regs pos own' inv' regs' pos', foldM (trap_gate g2 rnd) l (own, inv, regs, pos) = Ok (own', inv', regs', pos') ->
  gates own' = gates own ++ blk (own_l g2) (draw rnd pos (length l)) (map pr l) /\ gates inv' = gates inv ++ blk (inv_l g2) (draw rnd pos (length l)) (map pr l) /\
  regs' = regs ++ qs_of l /\ pos' = pos + length l.
Proof.
  induction 1 as [|j l Hj Hl IH]; intros own inv regs pos own' inv' regs' pos' E.
  - cbn in E. injection E as <- <- <- <-. cbn. rewrite !app_nil_r. repeat split; auto.
  - destruct Hj as (c & t & -> & Hc & Ht & Hct). cbn [foldM] in E. inv_bind E. cbn [trap_gate instr_qubits gqubits index_e nth_error bind] in E0. destruct (pair_ok (rnd pos) c t) as [p Ep]. rewrite Ep in E0. cbn [bind] in E0. injection E0 as <-.
    destruct (IH _ _ _ _ _ _ _ _ E) as (A & B & C & D). rewrite A, B, C, D. rewrite !gates_app. cbn [length draw]. unfold draw. cbn [seq map blk pr gqubits nth]. unfold own_l at 2, inv_l at 2. rewrite Ep. rewrite <- !app_assoc. replace (pos + 1) with (S pos) by lia. repeat split; auto; try lia.
Qed.
Lemma rest_shape rnd regs qs : forall own inv pos own' inv' pos', fold_left (trap_rest rnd regs) qs (own, inv, pos) = (own', inv', pos') ->
  gates own' = gates own ++ blk (own_l g2) (draw rnd pos (length (idles regs qs))) (idles regs qs) /\ gates inv' = gates inv ++ blk (inv_l g2) (draw rnd pos (length (idles regs qs))) (idles regs qs) /\
  pos' = pos + length (idles regs qs).
Proof.
  induction qs as [|q qs IH]; intros own inv pos own' inv' pos' E.
  - cbn in E. injection E as <- <- <-. cbn. rewrite !app_nil_r. repeat split; auto.
  - cbn [fold_left trap_rest] in E. unfold idles in *. cbn [filter]. destruct (mem q regs); cbn [negb]; [apply IH, E|].
    destruct (IH _ _ _ _ _ _ E) as (A & B & D). rewrite A, B, D. rewrite !gates_app. cbn [map length draw]. unfold draw. cbn [seq map blk]. unfold own_l at 2, inv_l at 2. rewrite <- !app_assoc. replace (pos + 1) with (S pos) by lia. repeat split; auto; try lia.
Qed.
Lemma blk_idle ls : forall bs, blk (two_l g2) bs (map Idl ls) = [].
Proof. induction ls as [|a ls IH]; intros [|b0 bs0]; try reflexivity. cbn [map blk two_l app]. apply IH. Qed.
Lemma two_shape l ls : Forall (two_ok g2 n) l -> forall bs, length bs = length (map pr l ++ map Idl ls) -> gates l = blk (two_l g2) bs (map pr l ++ map Idl ls).
Proof.
  induction 1 as [|j l Hj Hl IH]; intros bs Hb; [symmetry; apply blk_idle|]. destruct bs as [|b bs]; [discriminate|]. injection Hb as Hb. destruct Hj as (c & t & -> & _). cbn [map app blk pr two_l gqubits nth]. rewrite <- (IH bs Hb). reflexivity.
Qed.
Lemma layer_shape L rnd done cur pos l done' cur' pos' : ly_gate L = g2 -> ly_n L = n -> layer2 g2 n l -> trap_layer L rnd (done, cur, pos) l = Ok (done', cur', pos') ->
  exists own, done' = done ++ [own] /\ gates own = gates cur ++ blk (own_l g2) (draw rnd pos (length (locs n l))) (locs n l) /\ gates cur' = blk (inv_l g2) (draw rnd pos (length (locs n l))) (locs n l) /\ pos' = pos + length (locs n l).
Proof.
  intros Eg En Hl E. cbn [trap_layer] in E. inv_bind E. destruct v as [[[own inv] regs] p]. rewrite Eg in E0. destruct (gates_shape rnd l (layer2_ok _ _ _ Hl) _ _ _ _ _ _ _ _ E0) as (A & B & C & D). rewrite En in E.
  destruct (fold_left (trap_rest rnd regs) (seq 0 n) (own, inv, p)) as [[own2 inv2] p2] eqn:E2. destruct (rest_shape rnd regs (seq 0 n) _ _ _ _ _ _ E2) as (A2 & B2 & D2). injection E as <- <- <-. exists own2. split; [reflexivity|].
  cbn [app] in C. subst regs p. rewrite A2, B2, D2, A, B. unfold locs. rewrite app_length, map_length, draw_app. rewrite !blk_app by (rewrite length_draw, map_length; reflexivity). rewrite <- !app_assoc. cbn [gates flat_map app]. repeat split; auto. lia.
Qed.
Lemma locs_good l : layer2 g2 n l -> good_locs n (locs n l).
Proof.
  intros Hl. pose proof (layer2_ok _ _ _ Hl) as Ho. destruct Hl as [_ Hd].
  assert (Es : sups (map pr l) = qs_of l).
  { clear Hd. induction Ho as [|j l Hj Ho IH]; [reflexivity|]. destruct Hj as (c & t & -> & _). unfold sups, qs_of in *. cbn [map flat_map pr gqubits nth sup app instr_qubits]. rewrite IH. reflexivity. }
  assert (Ei : forall qs, sups (map Idl qs) = qs) by (induction qs as [|q qs IH]; [reflexivity|]; unfold sups in *; cbn [map flat_map sup app]; rewrite IH; reflexivity).
  unfold good_locs, locs, idles. unfold sups. rewrite flat_map_app. fold (sups (map pr l)) (sups (map Idl (filter (fun q => negb (mem q (qs_of l))) (seq 0 n)))). rewrite Es, Ei. split; [|split].
  - assert (G : forall A B : list nat, NoDup A -> NoDup B -> (forall x, In x B -> ~ In x A) -> NoDup (A ++ B)).
    { clear. induction A as [|a A IH]; intros B HA HB H; [exact HB|]. inversion HA; subst. cbn. constructor; [|apply IH; auto; intros x Hx Hx'; apply (H x Hx); right; exact Hx']. intros X. apply in_app_or in X as [X|X]; [contradiction|]. apply (H a X). left. reflexivity. }
    apply G; [exact Hd|apply NoDup_filter, seq_NoDup|]. intros x Hx Hx'. apply filter_In in Hx as [_ Hx]. apply mem_In in Hx'. rewrite Hx' in Hx. discriminate.
  - apply Forall_app. split; [|apply Forall_forall; intros u Hu; apply in_map_iff in Hu as (q & <- & _); exact I]. clear Hd Es. induction Ho as [|j l Hj Ho IH]; [constructor|]. destruct Hj as (c & t & -> & _ & _ & H). constructor; [exact H|exact IH].
  - intros j. rewrite in_app_iff, filter_In, in_seq. split.
    + intros [H|[H _]]; [|lia]. clear -Ho H. induction Ho as [|i l Hj Ho IH]; [destruct H|]. destruct Hj as (c & t & -> & Hc & Ht & _). cbn in H. destruct H as [<-|[<-|H]]; auto.
    + intros H. destruct (mem j (qs_of l)) eqn:M; [left; apply mem_In, M|right; split; [lia|reflexivity]].
Qed.

(** Errors carried through a trap circuit. *)
Fixpoint flow_upto (ss ts : list (list cinstr)) (es : list error) (f : error) : error :=
  match ss, ts, es with
  | s :: ss', t :: ts', e :: es' => flow_upto ss' ts' es' (xe (frs (gates t) (frs (gates s) f)) e)
  | _, _, _ => f
  end.
Lemma draw_firstn rnd pos a b : firstn a (draw rnd pos (a + b)) = draw rnd pos a.
Proof. rewrite draw_app, firstn_app, length_draw, Nat.sub_diag. cbn [firstn]. rewrite app_nil_r. rewrite <- (length_draw rnd pos a) at 1. apply firstn_all. Qed.
Lemma draw_skipn rnd pos a b : skipn a (draw rnd pos (a + b)) = draw rnd (pos + a) b.
Proof. rewrite draw_app, skipn_app, length_draw, Nat.sub_diag. cbn [skipn]. rewrite <- (length_draw rnd pos a) at 1. rewrite skipn_all. reflexivity. Qed.
Lemma total_cons (ls : list loc) lss : total (ls :: lss) = length ls + total lss.
Proof. unfold total. cbn. apply app_length. Qed.
Lemma trap_flow L rnd : ly_gate L = g2 -> ly_n L = n -> forall twos done cur pos done' cur' pos', Forall (layer2 g2 n) twos -> foldM (trap_layer L rnd) twos (done, cur, pos) = Ok (done', cur', pos') ->
  pos' = pos + total (map (locs n) twos) /\ exists news, done' = done ++ news /\ length news = length twos /\ forall es f ss, length es = length twos ->
    frs (gates cur') (flow_upto (news ++ ss) twos es f) = steps g2 (map (locs n) twos) es (draw rnd pos (total (map (locs n) twos))) (frs (gates cur) f).
Proof.
  intros Eg En. induction twos as [|l twos IH]; intros done cur pos done' cur' pos' H2 E.
  - cbn in E. injection E as <- <- <-. split; [cbn; lia|]. exists []. rewrite app_nil_r. split; [reflexivity|split; [reflexivity|]]. intros es f ss Hes. destruct es; [|discriminate]. destruct ss as [|s ss]; reflexivity.
  - cbn [foldM] in E. inv_bind E. destruct v as [[done1 cur1] pos1]. apply Forall_cons_iff in H2 as [Hl H2]. destruct (layer_shape L rnd _ _ _ _ _ _ _ Eg En Hl E0) as (own & -> & Go & Gi & ->).
    destruct (IH _ _ _ _ _ _ H2 E) as (Ep & news & -> & Ln & Hf). cbn [map]. rewrite total_cons. split; [lia|]. exists (own :: news). split; [rewrite <- app_assoc; reflexivity|]. split; [cbn; lia|]. intros es f ss Hes. destruct es as [|e es]; [discriminate|]. injection Hes as Hes. cbn [app flow_upto steps]. rewrite draw_firstn, draw_skipn. rewrite Hf by exact Hes. f_equal. rewrite Gi. unfold Tlg. f_equal. f_equal. unfold locs at 1, idles at 1.
    rewrite (two_shape l (filter (fun q => negb (mem q (qs_of l))) (seq 0 n)) (layer2_ok _ _ _ Hl) (draw rnd pos (length (locs n l)))) by (rewrite length_draw; reflexivity). rewrite Go, frs_app. reflexivity.
Qed.
Lemma trap_shown L rnd pos singles pos' : ly_gate L = g2 -> good_layers n L -> routine_two L rnd pos = Ok (singles, pos') ->
  pos' = pos + S (total (map (locs n) (ly_two L))) /\ forall es p, length es = length (ly_two L) ->
    frs (gates (last singles [])) (flow_upto singles (ly_two L) es (flipped p)) = shown g2 n (map (locs n) (ly_two L)) es p (draw rnd pos (S (total (map (locs n) (ly_two L))))).
Proof.
  intros Eg [Gn Gs Gt Gl] E. unfold routine_two in E. inv_bind E. destruct v as [[done cur] pos1]. injection E as <- <-. rewrite Gn in *. rewrite Eg in Gt.
  destruct (trap_flow L rnd Eg Gn _ _ _ _ _ _ _ Gt E0) as (Ep & news & -> & Ln & Hf). split; [lia|]. intros es p Hes. cbn [app]. rewrite last_last, gates_app, frs_app. rewrite Hf by exact Hes.
  unfold shown. rewrite (draw_app rnd pos 1). change (draw rnd pos 1) with [rnd pos]. cbn [app nth List.tl]. unfold hg. destruct (rnd pos); reflexivity.
Qed.
End Shape.

(** ** Counting *)
Definition count {A} (P : A -> bool) (l : list A) : nat := length (filter P l).
Lemma count_app {A} (P : A -> bool) a b : count P (a ++ b) = count P a + count P b.
Proof. unfold count. rewrite filter_app, app_length. reflexivity. Qed.
Lemma count_map {A B} (h : A -> B) P l : count P (map h l) = count (fun a => P (h a)) l.
Proof. unfold count. induction l as [|a l IH]; [reflexivity|]. cbn. destruct (P (h a)); cbn; rewrite IH; reflexivity. Qed.
Lemma count_four {A} (P Q R S : A -> bool) l : (forall a, In a l -> P a = true \/ Q a = true \/ R a = true \/ S a = true) -> length l <= count P l + count Q l + count R l + count S l.
Proof.
  induction l as [|a l IH]; intros H; [cbn; lia|]. assert (I : length l <= count P l + count Q l + count R l + count S l) by (apply IH; intros x Hx; apply H; right; exact Hx). specialize (H a (or_introl eq_refl)). unfold count in *. cbn [filter length]. destruct (P a), (Q a), (R a), (S a); cbn [length]; try lia; destruct H as [H|[H|[H|H]]]; discriminate.
Qed.

Lemma count_flip c : forall d (P : bits -> bool), c < d -> count (fun bs => P (flip c bs)) (cube d) = count P (cube d).
Proof.
  induction c as [|c IH]; intros [|d] P H; try lia; cbn [cube]; rewrite !count_app, !count_map.
  - change (count (fun a => P (flip 0 (false :: a))) (cube d)) with (count (fun a => P (true :: a)) (cube d)). change (count (fun a => P (flip 0 (true :: a))) (cube d)) with (count (fun a => P (false :: a)) (cube d)). lia.
  - change (count (fun a => P (flip (S c) (false :: a))) (cube d)) with (count (fun a => P (false :: flip c a)) (cube d)). change (count (fun a => P (flip (S c) (true :: a))) (cube d)) with (count (fun a => P (true :: flip c a)) (cube d)).
    rewrite (IH d (fun a => P (false :: a))), (IH d (fun a => P (true :: a))) by lia. reflexivity.
Qed.
Lemma cube_len d : length (cube d) = 2 ^ d.
Proof. induction d as [|d IH]; [reflexivity|]. cbn [cube]. rewrite app_length, !map_length, IH. cbn. lia. Qed.
Lemma cube_in d : forall bs, In bs (cube d) -> length bs = d.
Proof. induction d as [|d IH]; intros bs H; cbn in H; [destruct H as [<-|[]]; reflexivity|]. apply in_app_or in H as [H|H]; apply in_map_iff in H as (a & <- & Ha); cbn; f_equal; apply IH, Ha. Qed.
Theorem quarter g2 n lss es p : g2 = str "cx" \/ g2 = str "cz" -> Forall (good_locs n) lss -> length es = length lss -> Exists (nontrivial n) es ->
  2 ^ S (total lss) <= 4 * count (fun bs => negb (silent n (shown g2 n lss es p bs))) (cube (S (total lss))).
Proof.
  intros Hg G Hl He. destruct (four_choices g2 Hg n lss es p G Hl He) as (c & H0 & Hc & H). set (P := fun bs => negb (silent n (shown g2 n lss es p bs))). set (d := S (total lss)) in *.
  assert (K : length (cube d) <= count P (cube d) + count (fun bs => P (flip 0 bs)) (cube d) + count (fun bs => P (flip c bs)) (cube d) + count (fun bs => P (flip 0 (flip c bs))) (cube d)).
  { apply count_four. intros bs Hbs. destruct (H bs (cube_in _ _ Hbs)) as (bs' & Hi & Hs). assert (E : P bs' = true) by (unfold P; rewrite Hs; reflexivity). destruct Hi as [<-|[<-|[<-|[<-|[]]]]]; auto. }
  rewrite (count_flip c d (fun bs => P (flip 0 bs))) in K by exact Hc. rewrite (count_flip 0 d P) in K by (unfold d; lia). rewrite (count_flip c d P) in K by exact Hc. rewrite cube_len in K. lia.
Qed.
