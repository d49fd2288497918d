(** A circuit moved to other qubits of a larger register and measured there has
    the outcomes of the original circuit. *)
From Coq Require Import QArith.
From Verif Require Import Base LinAlg QSem DihedralModel RBSeqModel RBSeqSpec RBSeqActProofs StdGates AccSpec AccProbProofs.
Open Scope nat_scope.

(** The basis state with bits [y] on [pat] and 0 elsewhere. *)
Definition emb (N : nat) (pat : list nat) (y : bits) : bits := wr pat y (repeat false N).
Lemma emb_length N pat y : length (emb N pat y) = N.
Proof. unfold emb. rewrite length_wr, repeat_length. reflexivity. Qed.

Section Embed.
Context {F : Type} {HF : Fld F}.
Add Field FldFieldE : fth.
Variable gmat : pystr -> list Q -> bits -> bits -> F.
Variables (N : nat) (pat : list nat).
Hypothesis Hnd : NoDup pat.
Hypothesis Hlt : forall q, In q pat -> q < N.

Lemma emb_rd y : length y = length pat -> rd pat (emb N pat y) = y.
Proof. intros Hy. unfold emb. apply rd_wr; auto. rewrite repeat_length. exact Hlt. Qed.
Lemma emb_inj y y' : length y = length pat -> length y' = length pat -> emb N pat y = emb N pat y' -> y = y'.
Proof. intros H H' E. rewrite <- (emb_rd y H), <- (emb_rd y' H'), E. reflexivity. Qed.
Lemma emb_zero : emb N pat (repeat false (length pat)) = repeat false N.
Proof.
  unfold emb. rewrite <- (wr_rd pat (repeat false N)) at 2; auto; [|rewrite repeat_length; exact Hlt]. f_equal.
  unfold rd. clear. induction pat as [|q l IH]; cbn [length repeat map]; auto. rewrite nth_repeat. f_equal. exact IH.
Qed.

Lemma run_zero (c : list (op F)) n p : (forall x, length x = n -> p x = f0) -> forall x, length x = n -> run c p x = f0.
Proof.
  intros Hp x Hx. rewrite (run_ext n c p (fun y => fmul f0 (p y))); auto.
  - rewrite (run_scale c f0 p n x Hx). ring.
  - intros y Hy. rewrite (Hp y Hy). ring.
Qed.

Lemma final_emb body y : fits (length pat) body -> length y = length pat ->
  final gmat N (map CGate (map (on pat) body)) (emb N pat y) = final gmat (length pat) (map CGate body) y.
Proof.
  intros Hf Hy. unfold final.
  assert (G : forall l, gates (map CGate l) = l) by (induction l as [|g l IH]; cbn; [reflexivity | f_equal; exact IH]).
  rewrite !G, map_on. unfold emb. rewrite (run_place N pat); auto; [|apply fits_ok; exact Hf|apply repeat_length].
  apply (run_ext (length pat)); auto. intros y' Hy'. unfold ground. fold (emb N pat y').
  destruct (eqb_spec y' (repeat false (length pat))) as [->|Hn]; [rewrite emb_zero, eqb_refl; reflexivity|].
  destruct (eqb_spec (emb N pat y') (repeat false N)) as [E|_]; auto. exfalso. apply Hn. apply emb_inj; auto; [apply repeat_length|]. rewrite emb_zero. exact E.
Qed.
Lemma final_off body x : fits (length pat) body -> length x = N -> x <> emb N pat (rd pat x) ->
  final gmat N (map CGate (map (on pat) body)) x = f0.
Proof.
  intros Hf Hx Hne. unfold final.
  assert (G : forall l, gates (map CGate l) = l) by (induction l as [|g l IH]; cbn; [reflexivity | f_equal; exact IH]).
  rewrite G, map_on.
  assert (Ex : wr pat (rd pat x) x = x) by (apply wr_rd; auto; rewrite Hx; exact Hlt). rewrite <- Ex at 1.
  rewrite (run_place N pat); auto; [|apply fits_ok; exact Hf|apply length_rd].
  apply (run_zero _ (length pat)); [|apply length_rd]. intros y Hy. unfold ground.
  destruct (eqb_spec (wr pat y x) (repeat false N)) as [E|_]; auto. exfalso. apply Hne.
  apply bits_ext; [rewrite emb_length; exact Hx|]. intros j Hj. unfold emb.
  destruct (in_dec Nat.eq_dec j pat) as [Hi|Hi].
  - apply in_nth in Hi. destruct Hi as [i [Hi <-]]. rewrite wr_in; auto; [symmetry; apply nth_rd; exact Hi | apply length_rd | rewrite repeat_length; apply Hlt, nth_In, Hi].
  - rewrite wr_out by exact Hi. rewrite <- E. rewrite wr_out by exact Hi. reflexivity.
Qed.

Context {K : Type} {HK : Fld K}.
Add Field FldFieldEK : (@fth K HK).
Variable w : F -> K.
Hypothesis Hw0 : w f0 = f0.

(** Sum over the larger register of values that vanish off the embedded states. *)
Lemma fsum_emb (f : bits -> K) : (forall x, length x = N -> x <> emb N pat (rd pat x) -> f x = f0) ->
  fsum (map f (cube N)) = fsum (map (fun y => f (emb N pat y)) (cube (length pat))).
Proof.
  intros H. transitivity (fsum (map (fun x => fsum (map (fun y => if eqb (emb N pat y) x then f x else f0) (cube (length pat)))) (cube N))).
  - apply fsum_map_ext. intros x Hx. apply in_cube in Hx. 
    destruct (eqb_spec x (emb N pat (rd pat x))) as [E|Hne].
    + symmetry. rewrite (fsum_map_ext _ (fun y => if eqb (rd pat x) y then f x else f0)).
      * apply (fsum_pick (cube (length pat)) (rd pat x) (fun _ => f x)); [apply cube_NoDup | apply in_cube, length_rd].
      * intros y Hy. apply in_cube in Hy. destruct (eqb_spec (emb N pat y) x) as [E1|H1].
        -- rewrite <- E1, (emb_rd y Hy), eqb_refl. reflexivity.
        -- destruct (eqb_spec (rd pat x) y) as [E2|_]; auto. exfalso. apply H1. rewrite <- E2. symmetry. exact E.
    + rewrite (H x Hx Hne). symmetry. apply fsum_map_zero'. intros y _. destruct (eqb _ _); reflexivity.
  - rewrite fsum_swap. apply fsum_map_ext. intros y Hy. apply in_cube in Hy.
    apply (fsum_pick (cube N) (emb N pat y) f); [apply cube_NoDup | apply in_cube, emb_length].
Qed.

(** [pat[k]] is measured into bit [k]; gates come before. *)
Lemma prob_emb body ops y : fits (length pat) body -> gates ops = map (on pat) body ->
  (forall x, length x = N -> reads (length pat) ops x = rd pat x) -> length y = length pat ->
  prob gmat w N (length pat) ops (key_of y) = fdiv (w (final gmat (length pat) (map CGate body) y)) (total gmat w (length pat) (map CGate body)).
Proof.
  intros Hf Hg Hr Hy.
  assert (Hfin : forall x, final gmat N ops x = final gmat N (map CGate (map (on pat) body)) x).
  { intros x. unfold final. rewrite Hg. do 2 f_equal. clear. induction (map (on pat) body) as [|g l IH]; cbn; [reflexivity | f_equal; exact IH]. }
  unfold prob, total. f_equal.
  - rewrite fsum_emb.
    + rewrite (fsum_map_ext _ (fun y' => if eqb y y' then w (final gmat (length pat) (map CGate body) y) else f0)).
      * apply (fsum_pick (cube (length pat)) y (fun _ => w (final gmat (length pat) (map CGate body) y))); [apply cube_NoDup | apply in_cube, Hy].
      * intros y' Hy'. apply in_cube in Hy'. rewrite Hr by apply emb_length. rewrite (emb_rd y' Hy').
        destruct (eqb_spec (key_of y') (key_of y)) as [E|E].
        -- apply key_inj in E. subst y'. rewrite eqb_refl, Hfin, final_emb by assumption. reflexivity.
        -- destruct (eqb_spec y y') as [<-|_]; [contradiction | reflexivity].
    + intros x Hx Hne. rewrite Hfin, (final_off body x Hf Hx Hne), Hw0. destruct (eqb _ _); reflexivity.
  - rewrite fsum_emb.
    + apply fsum_map_ext. intros y' Hy'. apply in_cube in Hy'. rewrite Hfin, final_emb by assumption. reflexivity.
    + intros x Hx Hne. rewrite Hfin, (final_off body x Hf Hx Hne). exact Hw0.
Qed.
End Embed.

(** Measurements of [pat[k]] into bit [k]. *)
Lemma reads_seq pat m : forall k cl x, length cl = m -> k + length pat <= m ->
  let r := fold_left (fun cl i => match i with CMeasure q c => set1 cl c (nth q x false) | _ => cl end) (map (fun qc => CMeasure (fst qc) (snd qc)) (combine pat (seq k (length pat)))) cl in
  length r = m /\ forall j, j < m -> nth j r false = if (k <=? j) && (j <? k + length pat) then nth (nth (j - k) pat 0) x false else nth j cl false.
Proof.
  induction pat as [|q pat IH]; intros k cl x Hc Hk; cbn [length combine seq map fold_left fst snd].
  - split; [exact Hc|]. intros j Hj. destruct (Nat.leb_spec k j), (Nat.ltb_spec j (k + 0)); cbn [andb]; try reflexivity; lia.
  - destruct (IH (S k) (set1 cl k (nth q x false)) x) as [L R]; [rewrite length_set1; exact Hc | cbn [length] in Hk; lia|].
    split; [exact L|]. intros j Hj. rewrite (R j Hj). rewrite nth_set1.
    destruct (Nat.leb_spec (S k) j), (Nat.ltb_spec j (S k + length pat)), (Nat.leb_spec k j), (Nat.ltb_spec j (k + S (length pat))); cbn [andb]; try lia.
    + replace (j - k) with (S (j - S k)) by lia. reflexivity.
    + destruct (Nat.eqb_spec j k); [lia | reflexivity].
    + replace j with k by lia. rewrite Nat.eqb_refl, Nat.sub_diag. cbn [andb]. cbn [length] in Hk. destruct (Nat.ltb_spec k (length cl)); [reflexivity | lia].
    + destruct (Nat.eqb_spec j k); [lia | reflexivity].
Qed.
Lemma reads_pat pat x : reads (length pat) (map (fun qc => CMeasure (fst qc) (snd qc)) (combine pat (seq 0 (length pat)))) x = rd pat x.
Proof.
  unfold reads. destruct (reads_seq pat (length pat) 0 (repeat false (length pat)) x (repeat_length _ _) (le_n _)) as [L R].
  apply bits_ext; [rewrite length_rd; exact L|]. intros j Hj. rewrite L in Hj. rewrite (R j Hj), nth_rd by exact Hj.
  cbn [Nat.leb Nat.add andb]. destruct (Nat.ltb_spec j (length pat)); [|lia]. rewrite Nat.sub_0_r. reflexivity.
Qed.
Lemma reads_gates m body ops x : reads m (map CGate body ++ ops) x = reads m ops x.
Proof. unfold reads. rewrite fold_left_app. f_equal. generalize (repeat false m). induction body as [|g body IH]; intros l; cbn; auto. Qed.
