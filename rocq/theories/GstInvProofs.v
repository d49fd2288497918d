(** Linear inversion, the gauge and the objective function (C49). *)
From Coq Require Import QArith.
From Verif Require Import LinAlg LinInv Base ResultFacts PyStr DihedralModel RBSeqModel TomoModel GstModel GstInvSpec.
Local Open Scope list_scope.
Local Open Scope nat_scope.

Section Inv.
Context {F : Type} {HF : Fld F}.
Add Field FldFieldGI : (fth (F:=F)).
Local Notation mat := (mat (F:=F) nat).

Lemma inverse_left n (X M : mat) : is_id n (prod n X M) -> inverse_of n X M.
Proof. intros H i j Hi Hj. split; [apply H; assumption|apply (left_right_inverse n X M H); assumption]. Qed.
Lemma mapply_idx n (A B : mat) (x y : nat -> F) i : i < n -> (forall j, j < n -> A i j = B i j) -> (forall j, j < n -> x j = y j) -> mapply (seq 0 n) A x i = mapply (seq 0 n) B y i.
Proof. intros Hi HA Hx. apply mapply_ext; intros k Hk; apply in_seq in Hk; [apply HA|apply Hx]; lia. Qed.
Lemma mapply_id n (A : mat) x i : is_id n A -> i < n -> mapply (seq 0 n) A x i = x i.
Proof. intros H Hi. unfold mapply. rewrite <- (pick_nat n i x) by assumption. apply fsum_map_ext. intros k Hk. apply in_seq in Hk. rewrite H by lia. destruct (Nat.eqb i k); ring. Qed.
Lemma after_ext n Ms (x y : nat -> F) : (forall i, i < n -> x i = y i) -> forall i, i < n -> after n Ms x i = after n Ms y i.
Proof. revert x y. induction Ms as [|M Ms IH]; intros x y H i Hi; cbn; [auto|]. apply IH; [|assumption]. intros j Hj. apply mapply_idx; auto. Qed.

(** * A change of gauge *)
Section Gauge.
Variables (n : nat) (B X : mat).
Hypothesis HX : inverse_of n X B.
Definition conj_by (M M' : mat) : Prop := forall i j, i < n -> j < n -> M' i j = mmul (seq 0 n) (mmul (seq 0 n) X M) B i j.
Lemma XB : is_id n (prod n X B). Proof. intros i j Hi Hj. apply HX; assumption. Qed.
Lemma BX : is_id n (prod n B X). Proof. intros i j Hi Hj. apply HX; assumption. Qed.
Lemma conj_apply M M' x i : conj_by M M' -> i < n -> mapply (seq 0 n) M' x i = mapply (seq 0 n) X (mapply (seq 0 n) M (mapply (seq 0 n) B x)) i.
Proof.
  intros H Hi. rewrite (mapply_idx n M' (mmul (seq 0 n) (mmul (seq 0 n) X M) B) x x i) by (auto). rewrite !mapply_mmul. reflexivity.
Qed.
Lemma after_conj Ms Ms' r : Forall2 conj_by Ms Ms' -> forall i, i < n -> after n Ms' (mapply (seq 0 n) X r) i = mapply (seq 0 n) X (after n Ms r) i.
Proof.
  intros H. revert r. induction H as [|M M' Ms Ms' HM _ IH]; intros r i Hi; [reflexivity|]. cbn.
  change (fold_left _ Ms' ?v) with (after n Ms' v). change (fold_left _ Ms ?v) with (after n Ms v). rewrite <- IH by assumption. apply after_ext; [|assumption]. intros j Hj.
  rewrite (conj_apply M M') by assumption. apply mapply_idx; auto. intros k Hk. apply mapply_idx; auto. intros l Hl. rewrite mapply_mmul. apply (mapply_id n (mmul (seq 0 n) B X) r l BX Hl).
Qed.
Lemma prob_conj E r Ms Ms' E' r' : Forall2 conj_by Ms Ms' -> (forall j, j < n -> E' j = fsum (map (fun i => fmul (E i) (B i j)) (seq 0 n))) ->
  (forall i, i < n -> r' i = mapply (seq 0 n) X r i) -> seq_prob n E' r' Ms' = seq_prob n E r Ms.
Proof.
  intros HM HE Hr. unfold seq_prob.
  transitivity (fsum (map (fun j => fsum (map (fun i => fmul (fmul (E i) (B i j)) (mapply (seq 0 n) X (after n Ms r) j)) (seq 0 n))) (seq 0 n))).
  - apply fsum_map_ext. intros j Hj. apply in_seq in Hj. rewrite HE by lia. rewrite <- fsum_map_mul_r. rewrite (after_ext n Ms' r' (mapply (seq 0 n) X r)) by (auto; lia).
    apply fsum_map_ext. intros i _. rewrite (after_conj Ms Ms' r HM) by lia. reflexivity.
  - rewrite fsum_swap. apply fsum_map_ext. intros i Hi. apply in_seq in Hi.
    transitivity (fmul (E i) (mapply (seq 0 n) B (mapply (seq 0 n) X (after n Ms r)) i)).
    + unfold mapply at 2. rewrite <- fsum_map_mul. apply fsum_map_ext. intros j _. ring.
    + rewrite mapply_mmul. rewrite (mapply_id n (mmul (seq 0 n) B X) _ i BX) by lia. reflexivity.
Qed.
Lemma nonzero_B x : nonzero n x -> nonzero n (mapply (seq 0 n) B x).
Proof.
  intros (i & Hi & Hx). 
  assert (D : (exists j, j < n /\ mapply (seq 0 n) B x j <> f0) \/ forall j, j < n -> mapply (seq 0 n) B x j = f0).
  { clear. assert (G : forall m, (exists j, j < m /\ mapply (seq 0 n) B x j <> f0) \/ forall j, j < m -> mapply (seq 0 n) B x j = f0).
    { induction m as [|m [(j & Hj & E)|IH]]; [right; intros; lia|left; exists j; split; [lia|assumption]|]. destruct (feqb_ok (mapply (seq 0 n) B x m) f0) as [E|N]; [right|left; exists m; split; [lia|assumption]].
      intros j Hj. destruct (Nat.eq_dec j m) as [->|]; [assumption|apply IH; lia]. }
    apply G. }
  destruct D as [D|D]; [exact D|]. exfalso. apply Hx. rewrite <- (mapply_id n (mmul (seq 0 n) X B) x i XB Hi), <- mapply_mmul.
  unfold mapply at 1. apply fsum_map_zero'. intros k Hk. apply in_seq in Hk. rewrite D by lia. ring.
Qed.
Lemma spectrum M M' l : conj_by M M' -> (exists x, eigenvector n M' l x) <-> (exists y, eigenvector n M l y).
Proof.
  intros HM. split.
  - intros (x & Hx & E). exists (mapply (seq 0 n) B x). split; [apply nonzero_B, Hx|]. intros i Hi.
    transitivity (mapply (seq 0 n) B (mapply (seq 0 n) M' x) i).
    + rewrite (mapply_idx n B B (mapply (seq 0 n) M' x) (mapply (seq 0 n) X (mapply (seq 0 n) M (mapply (seq 0 n) B x))) i Hi) by (auto; intros; apply conj_apply; assumption).
      rewrite (mapply_mmul (seq 0 n) B X). rewrite (mapply_id n (mmul (seq 0 n) B X) _ i BX Hi). reflexivity.
    + rewrite (mapply_idx n B B _ (fun k => fmul l (x k)) i Hi) by auto. unfold mapply. rewrite <- fsum_map_mul. apply fsum_map_ext. intros k _. ring.
  - intros (y & Hy & E). exists (mapply (seq 0 n) X y).
    assert (By : forall k, k < n -> mapply (seq 0 n) B (mapply (seq 0 n) X y) k = y k) by (intros k Hk; rewrite mapply_mmul; apply (mapply_id n (mmul (seq 0 n) B X) y k BX Hk)).
    split.
    + destruct Hy as (i & Hi & Hy). 
      assert (D : (exists j, j < n /\ mapply (seq 0 n) X y j <> f0) \/ forall j, j < n -> mapply (seq 0 n) X y j = f0).
      { clear. assert (G : forall m, (exists j, j < m /\ mapply (seq 0 n) X y j <> f0) \/ forall j, j < m -> mapply (seq 0 n) X y j = f0).
        { induction m as [|m [(j & Hj & E)|IH]]; [right; intros; lia|left; exists j; split; [lia|assumption]|]. destruct (feqb_ok (mapply (seq 0 n) X y m) f0) as [E|N]; [right|left; exists m; split; [lia|assumption]].
          intros j Hj. destruct (Nat.eq_dec j m) as [->|]; [assumption|apply IH; lia]. }
        apply G. }
      destruct D as [D|D]; [exact D|]. exfalso. apply Hy. rewrite <- (By i Hi). unfold mapply at 1. apply fsum_map_zero'. intros k Hk. apply in_seq in Hk. rewrite D by lia. ring.
    + intros i Hi. rewrite (conj_apply M M') by assumption. rewrite (mapply_idx n X X _ (fun k => fmul l (y k)) i Hi); [|auto|].
      * unfold mapply. rewrite <- fsum_map_mul. apply fsum_map_ext. intros k _. ring.
      * intros k Hk. rewrite <- E by assumption. apply mapply_idx; auto.
Qed.
End Gauge.

(** * Linear inversion *)
Lemma table1_ok (probs : pyval -> option F) n key (v : nat -> F) : (forall i, i < n -> probs (key i) = Some (v i)) ->
  exists t, table1 probs n key = Ok t /\ forall i, i < n -> t i = v i.
Proof.
  intros H. unfold table1. rewrite (mapM_ok _ v) by (intros i Hi; apply in_seq in Hi; rewrite H by lia; reflexivity). cbn [bind]. eexists. split; [reflexivity|]. intros i Hi. cbn beta.
  rewrite (nth_indep _ f0 (v 0)) by now rewrite map_length, seq_length. rewrite map_nth, seq_nth by assumption. reflexivity.
Qed.
Lemma table2_ok (probs : pyval -> option F) n key (v : nat -> nat -> F) : (forall i j, i < n -> j < n -> probs (key i j) = Some (v i j)) ->
  exists t, table2 probs n key = Ok t /\ forall i j, i < n -> j < n -> t i j = v i j.
Proof.
  intros H. unfold table2. destruct (mapM_total (fun i => table1 probs n (key i)) (fun i t => forall j, j < n -> t j = v i j) (seq 0 n)) as (ts & E & Ht).
  - intros i Hi. apply in_seq in Hi. apply table1_ok. intros j Hj. apply H; lia.
  - rewrite E. cbn [bind]. eexists. split; [reflexivity|]. intros i j Hi Hj. cbn beta.
    assert (L := Forall2_length' _ _ _ Ht). rewrite seq_length in L.
    apply (Forall2_nth _ _ _ i i (nth i ts (fun _ => f0)) Ht); [rewrite (nth_error_nth' _ 0) by (rewrite seq_length; assumption); rewrite seq_nth by assumption; reflexivity|apply nth_error_nth'; lia|assumption].
Qed.
Lemma dset_fold (P : pystr -> mat -> Prop) (h : mat -> mat) l : Forall (fun gm => P (fst gm) (snd gm)) l -> forall d g, In g (map fst l) \/ (exists m, dget d g = Some (h m) /\ P g m) ->
  exists m, dget (fold_left (fun d gm => dset d (fst gm) (h (snd gm))) l d) g = Some (h m) /\ P g m.
Proof.
  induction 1 as [|[k m] l Hk _ IH]; intros d g Hg; [destruct Hg as [[]|Hg]; exact Hg|]. cbn [fold_left map fst snd] in *. apply IH.
  destruct (in_dec (list_eq_dec ascii_dec) g (map fst l)) as [Hin|Hin]; [now left|right]. rewrite dget_dset. destruct (eqb_spec g k) as [->|N]; [exists m; auto|].
  destruct Hg as [[<-|Hg]|Hg]; [congruence|contradiction|exact Hg].
Qed.

Section LinInv.
Variable np_inv : nat -> mat -> option mat.
Variables (spam gates : list pystr) (E rho : nat -> F) (G S : pystr -> mat) (probs : pyval -> option F).
Local Notation n := (length spam).
Hypothesis Hex : exact_gst n spam gates E rho G S probs.
Hypothesis Hinv : forall M, (forall i j, i < n -> j < n -> M i j = gram_matrix n spam E rho S i j) -> exists X, np_inv n M = Some X /\ inverse_of n X M.
Definition colB (i j : nat) : F := after n [S (nth j spam [])] rho i.
Definition rowA (i j : nat) : F := fsum (map (fun k => fmul (E k) (S (nth i spam []) k j)) (seq 0 n)).
Lemma row_apply i x : fsum (map (fun k => fmul (E k) (mapply (seq 0 n) (S (nth i spam [])) x k)) (seq 0 n)) = mapply (seq 0 n) rowA x i.
Proof.
  unfold mapply, rowA. transitivity (fsum (map (fun k => fsum (map (fun j => fmul (fmul (E k) (S (nth i spam []) k j)) (x j)) (seq 0 n))) (seq 0 n))).
  - apply fsum_map_ext. intros k _. rewrite <- fsum_map_mul. apply fsum_map_ext. intros j _. ring.
  - rewrite fsum_swap. apply fsum_map_ext. intros j _. apply fsum_map_mul_r.
Qed.
Lemma gram_AB i j : gram_matrix n spam E rho S i j = mmul (seq 0 n) rowA colB i j.
Proof. unfold gram_matrix, seq_prob. cbn [after fold_left]. rewrite row_apply. reflexivity. Qed.
Lemma inversion_explicit : exists est X, linear_inversion np_inv spam gates probs = Ok est /\ inverse_of n X colB /\
  (forall g, In g gates -> exists M, dget (ge_gates est) g = Some M /\ conj_by n colB X (G g) M) /\
  (forall j, j < n -> ge_E est j = fsum (map (fun i => fmul (E i) (colB i j)) (seq 0 n))) /\
  (forall i, i < n -> ge_rho est i = mapply (seq 0 n) X rho i).
Proof.
  destruct Hex as (H1 & H2 & H3). assert (Hl : forall i, i < n -> In (nth i spam []) spam) by (intros; apply nth_In; assumption).
  unfold linear_inversion.
  destruct (table1_ok probs n (fun i => key1 (nth i spam [])) (fun i => seq_prob n E rho [S (nth i spam [])])) as (tE & ET & HE); [intros; apply H1; auto|].
  rewrite ET. cbn [bind].
  destruct (table2_ok probs n (fun i j => key2 (nth j spam []) (nth i spam [])) (gram_matrix n spam E rho S)) as (tG & EG & HG); [intros; apply H2; auto|]. rewrite EG. cbn [bind].
  destruct (mapM_total (fun g => table2 probs n (fun i j => key3 (nth j spam []) g (nth i spam []))) (fun g t => forall i j, i < n -> j < n -> t i j = seq_prob n E rho [S (nth j spam []); G g; S (nth i spam [])]) gates) as (ts & Ets & Hts).
  { intros g Hg. apply table2_ok. intros i j Hi Hj. apply H3; auto. }
  rewrite Ets. cbn [bind]. destruct (Hinv tG HG) as (gi & Egi & Hgi). rewrite Egi.
  set (X := mmul (seq 0 n) gi rowA).
  assert (HX : inverse_of n X colB).
  { apply inverse_left. intros i j Hi Hj. unfold X. change (mmul (seq 0 n) (mmul (seq 0 n) gi rowA) colB i j = if Nat.eqb i j then f1 else f0). rewrite <- mmul_assoc.
    destruct (Hgi i j Hi Hj) as [A _]. rewrite <- A. unfold mmul at 1 3. apply fsum_map_ext. intros k Hk. apply in_seq in Hk. rewrite HG by lia. rewrite gram_AB. reflexivity. }
  eexists _, X. split; [reflexivity|]. split; [exact HX|]. cbn [ge_gates ge_E ge_rho]. split; [|split].
  - intros g Hg.
    destruct (dset_fold (fun g t => forall i j, i < n -> j < n -> t i j = seq_prob n E rho [S (nth j spam []); G g; S (nth i spam [])]) (mmul (seq 0 n) gi) (combine gates ts)) with (d := @nil (pystr * mat)) (g := g) as (m & Em & Hm).
    + clear - Hts. induction Hts; constructor; auto.
    + left. replace (map fst (combine gates ts)) with gates; [assumption|]. clear - Hts. induction Hts; cbn; congruence.
    + exists (mmul (seq 0 n) gi m). split; [exact Em|]. intros i j Hi Hj.
      transitivity (mmul (seq 0 n) gi (mmul (seq 0 n) rowA (mmul (seq 0 n) (G g) colB)) i j).
      * unfold mmul at 1 2. apply fsum_map_ext. intros k Hk. apply in_seq in Hk. rewrite Hm by lia. f_equal. unfold seq_prob. cbn [after fold_left]. rewrite row_apply. reflexivity.
      * unfold X. rewrite !mmul_assoc. reflexivity.
  - intros j Hj. rewrite HE by assumption. unfold seq_prob. reflexivity.
  - intros i Hi. unfold X. rewrite <- mapply_mmul. apply mapply_idx; auto. intros k Hk. rewrite HE by assumption. unfold seq_prob. cbn [after fold_left]. apply row_apply.
Qed.
Lemma inversion_lemma : exists est B X, linear_inversion np_inv spam gates probs = Ok est /\ inverse_of n X B /\
  (forall g, In g gates -> exists M, dget (ge_gates est) g = Some M /\ conj_by n B X (G g) M) /\
  (forall j, j < n -> ge_E est j = fsum (map (fun i => fmul (E i) (B i j)) (seq 0 n))) /\
  (forall i, i < n -> ge_rho est i = mapply (seq 0 n) X rho i).
Proof. destruct inversion_explicit as (est & X & H). exists est, colB, X. exact H. Qed.
(** What is estimated predicts every sequence of gates. *)
Lemma prediction_lemma est B X gs Ms : inverse_of n X B ->
  (forall g, In g gates -> exists M, dget (ge_gates est) g = Some M /\ conj_by n B X (G g) M) ->
  (forall j, j < n -> ge_E est j = fsum (map (fun i => fmul (E i) (B i j)) (seq 0 n))) ->
  (forall i, i < n -> ge_rho est i = mapply (seq 0 n) X rho i) ->
  Forall2 (fun g M => In g gates /\ dget (ge_gates est) g = Some M) gs Ms -> seq_prob n (ge_E est) (ge_rho est) Ms = seq_prob n E rho (map G gs).
Proof.
  intros HX HG HE Hr H. apply (prob_conj n B X HX); auto. clear - H HG. induction H as [|g M gs Ms [Hg E] _ IH]; constructor; [|assumption].
  destruct (HG g Hg) as (M' & E' & HM). rewrite E in E'. injection E' as <-. exact HM.
Qed.
End LinInv.

(** * Gauge optimisation *)
Lemma gauge_lemma np_inv d gs E rho B est : (forall X, np_inv d B = Some X -> inverse_of d X B) -> x_to_gateset np_inv d gs E rho B = Some est ->
  dkeys (ge_gates est) = dkeys gs /\
  (forall g M, dget gs g = Some M -> exists M', dget (ge_gates est) g = Some M' /\ forall l, (exists x, eigenvector d M' l x) <-> (exists x, eigenvector d M l x)) /\
  forall names Ms Ms', Forall2 (fun g M => dget gs g = Some M) names Ms -> Forall2 (fun g M => dget (ge_gates est) g = Some M) names Ms' ->
  seq_prob d (ge_E est) (ge_rho est) Ms' = seq_prob d E rho Ms.
Proof.
  intros Hinv H. unfold x_to_gateset in H. destruct (np_inv d B) as [X|] eqn:EX; [|discriminate]. injection H as <-. cbn [ge_gates ge_E ge_rho]. specialize (Hinv X eq_refl).
  assert (D : forall g M, dget gs g = Some M -> dget (map (fun kv => (fst kv, mmul (seq 0 d) (mmul (seq 0 d) X (snd kv)) B)) gs) g = Some (mmul (seq 0 d) (mmul (seq 0 d) X M) B)).
  { intros g M. induction gs as [|[k m] gs IH]; cbn; [discriminate|]. destruct (eqb g k); [congruence|exact IH]. }
  split; [unfold dkeys; rewrite map_map; reflexivity|]. split.
  - intros g M HM. exists (mmul (seq 0 d) (mmul (seq 0 d) X M) B). split; [apply D, HM|]. intros l. apply (spectrum d B X Hinv). intros i j _ _. reflexivity.
  - intros names Ms Ms' H1 H2. apply (prob_conj d B X Hinv); try reflexivity.
    revert Ms' H2. induction H1 as [|g M names Ms HM _ IH]; intros Ms' H2; inversion H2; subst; constructor; auto.
    match goal with HH : dget _ g = Some _ |- _ => rewrite (D g M HM) in HH; injection HH as <- end. intros i j _ _. reflexivity.
Qed.

(** * The objective function *)
Lemma flat_seq {A B} (l : list A) (g : A -> list B) d : flat_map (fun i => g (nth i l d)) (seq 0 (length l)) = flat_map g l.
Proof.
  induction l as [|a l IH]; [reflexivity|]. cbn [length seq flat_map nth]. f_equal. rewrite <- IH, <- seq_shift. rewrite !flat_map_concat_map, map_map. reflexivity.
Qed.
Lemma map_nth_seq {A} (l : list A) d : map (fun k => nth k l d) (seq 0 (length l)) = l.
Proof. induction l as [|a l IH]; [reflexivity|]. cbn [length seq map nth]. f_equal. rewrite <- seq_shift, map_map. exact IH. Qed.
Lemma index_nth {A} (l : list A) i d : i < length l -> index_e l i = Ok (nth i l d).
Proof. intros H. unfold index_e. rewrite (nth_error_nth' l d) by assumption. reflexivity. Qed.
Section Obj.
Variables (d : nat) (Gs names : list pystr) (Fs : dict pystr (list pystr)) (ops : pystr -> list pystr) (probs : pyval -> option F) (data : pystr -> pystr -> pystr -> F).
Hypothesis Hs : spam_of Gs names Fs ops.
Hypothesis Hd : forall fj g fi, In fj names -> In g Gs -> In fi names -> probs (VTup [VStr fj; VStr g; VStr fi]) = Some (data fj g fi).
Definition zmat : mat := fun _ _ => f0.
Lemma idx_ok (G : pystr -> mat) l : incl l Gs -> exists is_, mapM (fun g => match list_index Gs g with Some i => Ok i | None => Err ValueError end) l = Ok is_ /\ map (fun i => nth i (map G Gs) zmat) is_ = map G l.
Proof.
  intros H. destruct (mapM_total (fun g => match list_index Gs g with Some i => Ok i | None => Err ValueError end) (fun g i => nth i (map G Gs) zmat = G g) l) as (is_ & E & H2).
  - intros g Hg. apply H in Hg. destruct (list_index Gs g) as [i|] eqn:Ei; [|apply list_index_None in Ei; contradiction].
    exists i. split; [reflexivity|]. apply list_index_nth in Ei. apply nth_error_nth. apply map_nth_error. exact Ei.
  - exists is_. split; [exact E|]. clear - H2. induction H2; cbn; congruence.
Qed.
(** The terms, and their value for given matrices. *)
Definition term_value (E rho : nat -> F) (GM : list mat) (t : list nat * F) : F :=
  let x := fsub (seq_prob d E rho (map (fun i => nth i GM zmat) (fst t))) (snd t) in fmul x x.
Lemma after_map (GM : list mat) is_ v : fold_left (fun v g => mapply (seq 0 d) (nth g GM (fun _ _ => f0)) v) is_ v = after d (map (fun i => nth i GM zmat) is_) v.
Proof. revert v. induction is_ as [|i is_ IH]; intros v; [reflexivity|]. cbn. apply IH. Qed.
Lemma fold_ext {A B} (f g : A -> B -> A) l a : (forall x b, f x b = g x b) -> fold_left f l a = fold_left g l a.
Proof. intros H. revert a. induction l as [|b l IH]; intros a; [reflexivity|]. cbn. rewrite H. apply IH. Qed.
Lemma obj_fn_sum terms E rho GM : obj_fn d terms E rho GM = fsum (map (term_value E rho GM) terms).
Proof.
  unfold obj_fn. transitivity (fold_left (fun val t => fadd val (term_value E rho GM t)) terms f0); [|rewrite fold_left_fadd; ring].
  apply fold_ext. intros acc t. unfold term_value, seq_prob. rewrite after_map. reflexivity.
Qed.
Lemma objective_lemma : exists terms, obj_terms Gs names Fs probs = Ok terms /\
  forall E rho (G : pystr -> mat), obj_fn d terms E rho (map G Gs) = squared_error d Gs names ops data E rho G.
Proof.
  destruct Hs as [Hlen Hops]. unfold obj_terms. rewrite <- Hlen.
  set (term := fun i j k => do Fi <- index_e names i; do Fj <- index_e names j; do G <- index_e Gs k;
        do p <- match probs (key3 Fj G Fi) with Some p => Ok p | None => Err KeyError end;
        do fi <- dget_e Fs Fi; do fi <- mapM (fun g => match list_index Gs g with Some i => Ok i | None => Err ValueError end) fi;
        do fj <- dget_e Fs Fj; do fj <- mapM (fun g => match list_index Gs g with Some i => Ok i | None => Err ValueError end) fj;
        Ok (fj ++ [k] ++ fi, p)).
  set (good := fun (i j k : nat) (t : list nat * F) => snd t = data (nth j names []) (nth k Gs []) (nth i names []) /\
     forall G : pystr -> mat, map (fun i => nth i (map G Gs) zmat) (fst t) = map G (ops (nth j names []) ++ [nth k Gs []] ++ ops (nth i names []))).
  assert (T : forall i j k, i < length names -> j < length names -> k < length Gs -> exists t, term i j k = Ok t /\ good i j k t).
  { intros i j k Hi Hj Hk. unfold term. rewrite (index_nth names i []), (index_nth names j []), (index_nth Gs k []) by assumption. cbn [bind].
    assert (Ni : In (nth i names []) names) by (now apply nth_In). assert (Nj : In (nth j names []) names) by (now apply nth_In). assert (Nk : In (nth k Gs []) Gs) by (now apply nth_In).
    unfold key3. rewrite Hd by assumption. cbn [bind]. destruct (Hops _ Ni) as [Ei Ii], (Hops _ Nj) as [Ej Ij]. unfold dget_e. rewrite Ei. cbn [bind].
    destruct (idx_ok (fun _ => zmat) _ Ii) as (li & Eli & _). rewrite Eli. cbn [bind]. rewrite Ej. cbn [bind].
    destruct (idx_ok (fun _ => zmat) _ Ij) as (lj & Elj & _). rewrite Elj. cbn [bind]. eexists. split; [reflexivity|]. split; [reflexivity|]. intros G. cbn [fst].
    destruct (idx_ok G _ Ii) as (li' & Eli' & Hli). destruct (idx_ok G _ Ij) as (lj' & Elj' & Hlj). rewrite Eli' in Eli. injection Eli as <-. rewrite Elj' in Elj. injection Elj as <-.
    rewrite !map_app, Hli, Hlj. cbn [map]. f_equal. f_equal. rewrite (nth_indep _ zmat (G [])) by now rewrite map_length. f_equal. apply map_nth. }
  set (tv := fun (x y z : nat) => match term x y z with Ok t => t | Err _ => ([], f0) end).
  assert (T1 : forall i j, i < length names -> j < length names -> mapM (term i j) (seq 0 (length Gs)) = Ok (map (tv i j) (seq 0 (length Gs)))).
  { intros i j Hi Hj. apply mapM_ok. intros k Hk. apply in_seq in Hk. unfold tv. destruct (T i j k Hi Hj ltac:(lia)) as (t & -> & _). reflexivity. }
  assert (T2 : forall i, i < length names -> mapM (fun j => mapM (term i j) (seq 0 (length Gs))) (seq 0 (length names)) = Ok (map (fun j => map (tv i j) (seq 0 (length Gs))) (seq 0 (length names)))).
  { intros i Hi. apply mapM_ok. intros j Hj. apply in_seq in Hj. apply T1; lia. }
  assert (T3 : mapM (fun i => mapM (fun j => mapM (term i j) (seq 0 (length Gs))) (seq 0 (length names))) (seq 0 (length names)) = Ok (map (fun i => map (fun j => map (tv i j) (seq 0 (length Gs))) (seq 0 (length names))) (seq 0 (length names)))).
  { apply mapM_ok. intros i Hi. apply in_seq in Hi. apply T2; lia. }
  unfold term in T3 at 1. rewrite T3. cbn [bind]. eexists. split; [reflexivity|]. intros E rho G. rewrite obj_fn_sum. unfold squared_error. f_equal.
  rewrite map_map, <- flat_map_concat_map.
  rewrite <- (flat_seq names _ []). rewrite !flat_map_concat_map, concat_map, map_map. f_equal. apply map_ext_in. intros i Hi. apply in_seq in Hi.
  rewrite <- (flat_seq names _ []). rewrite !flat_map_concat_map, concat_map, map_map. f_equal. apply map_ext_in. intros j Hj. apply in_seq in Hj.
  rewrite map_map. rewrite <- (map_nth_seq Gs []) at 2. rewrite map_map. apply map_ext_in. intros k Hk. apply in_seq in Hk.
  unfold tv. destruct (T i j k ltac:(lia) ltac:(lia) ltac:(lia)) as (t & -> & Et & Em). unfold term_value. rewrite Em, Et. reflexivity.
Qed.
End Obj.
End Inv.
