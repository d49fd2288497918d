(** The objective function, the trace constraint and the whole fit. *)
From Coq Require Import QArith Reals Lra.
From Coquelicot Require Import Coquelicot.
From Verif Require Import LinAlg Base ResultFacts PyStr CtmpSpec EntSpec LinInv TomoModel TomoFitModel TomoFitSpec TomoBornProofs TomoPsdSpec GstModel GstInvSpec GstInvProofs GstOptModel GstOptSpec GstPauliProofs GstEncProofs GstConsProofs.
Local Open Scope list_scope.
Local Open Scope nat_scope.

(** ** Pauli vectors and operators *)
Lemma s2 : (sqrt (1 / 2) = / sqrt 2)%R.
Proof. replace (1 / 2)%R with (/ 2)%R by lra. apply sqrt_inv. Qed.
Lemma s2s : ((/ sqrt 2) * (/ sqrt 2) = 1 / 2)%R.
Proof. rewrite <- s2. rewrite sqrt_sqrt; lra. Qed.
Lemma pauli1 p r c : p < 4 -> r < 2 -> c < 2 -> pauli_op 1 p r c = sigma p r c.
Proof.
  intros Hp Hr Hc. unfold pauli_op. cbn [seq map]. unfold fprod. cbn [fold_right].
  do 4 (destruct p as [|p]; [destruct r as [|[|r]], c as [|[|c]]; try lia; apply injective_projections; cbn; lra|]). lia.
Qed.
Lemma convert_ok v : length v = 4 -> exists m, convert_from_ptm v = Ok m /\ m_rows m = 2 /\ m_cols m = 2 /\ same_entries 2 (m_at m) (operator_of (fun i => nth i v (RtoC 0))).
Proof.
  intros H. unfold convert_from_ptm. destruct (reshape_ok v 4 1 H) as (m & E). rewrite E. destruct (flat_reshape _ _ _ _ E) as (_ & _ & _ & A). cbn [bind]. eexists. split; [reflexivity|]. cbn [m_rows m_cols m_at]. repeat split.
  intros r c Hr Hc. unfold operator_of. rewrite sum_to_csumn, <- csumn_mul. apply csumn_ext. intros p Hp. rewrite A, pauli1, s2 by assumption. rewrite Nat.mul_1_r, Nat.add_0_r. repeat change (Cmult ?a ?b) with (fmul a b). ring.
Qed.
Lemma convert_error v : length v <> 4 -> convert_from_ptm v = Err ValueError.
Proof. intros H. unfold convert_from_ptm, reshape. destruct (Nat.eqb_spec (length v) (4 * 1)); [lia|reflexivity]. Qed.

Lemma trace_constraint n x E rho Gs : split_input_vector 1 n x = Ok (E, rho, Gs) ->
  let t := csumn 2 (fun r => operator_of (fun i => nth i rho (RtoC 0)) r r) in rho_trace_constraint 1 n x = Ok [fst t - 1; snd t]%R.
Proof.
  intros H. cbv zeta. destruct (Nat.eq_dec (length x) (vec_length 1 n)) as [Hl|Hl]; [|rewrite decoding_error in H by exact Hl; discriminate].
  destruct (decoding_lemma 1 n x Hl) as (E' & rho' & Gs' & S & Ln & EX). rewrite H in S. injection S as <- <- <-.
  unfold rho_trace_constraint, rho_trace. rewrite H. cbn [bind]. pose proof (ex_lenrho _ _ _ _ EX) as L. change (4 ^ 1) with 4 in L.
  destruct (reshape_ok rho (2 ^ 1) (2 ^ 1) L) as (m & Em). rewrite Em. cbn [bind]. destruct (flat_reshape _ _ _ _ Em) as (Fm & _). rewrite Fm.
  destruct (convert_ok rho L) as (k & Ek & R1 & _ & A). rewrite Ek. cbn [bind]. change (seq 0 (2 ^ 1)) with [0; 1]. cbn [mapM]. rewrite R1. cbn [Nat.ltb Nat.leb bind]. rewrite (A 0 0), (A 1 1) by lia. reflexivity.
Qed.
Lemma trace_constraint_error q n x : q <> 1 -> length x = vec_length q n -> rho_trace_constraint q n x = Err ValueError.
Proof.
  intros Hq Hl. destruct (decoding_lemma q n x Hl) as (E & rho & Gs & S & Ln & EX). unfold rho_trace_constraint, rho_trace. rewrite S. cbn [bind]. pose proof (ex_lenrho _ _ _ _ EX) as L.
  destruct (reshape_ok rho (2 ^ q) (2 ^ q)) as (m & Em); [rewrite L, pow4_sq; reflexivity|]. rewrite Em. cbn [bind]. destruct (flat_reshape _ _ _ _ Em) as (Fm & _). rewrite Fm.
  rewrite convert_error; [reflexivity|]. rewrite L. intros E4. apply Hq. apply (Nat.pow_inj_r 4); [lia|]. exact E4.
Qed.

Lemma tr2_ext d A A' B B' : same_entries d A A' -> same_entries d B B' -> tr2 d A B = tr2 d A' B'.
Proof. intros H1 H2. unfold tr2. apply csumn_ext. intros a Ha. apply csumn_ext. intros b Hb. rewrite H1, H2 by assumption. reflexivity. Qed.
Lemma tr2_pauli1 i j : i < 4 -> j < 4 -> tr2 2 (pauli_op 1 i) (pauli_op 1 j) = if i =? j then RtoC 2 else f0.
Proof.
  intros Hi Hj. transitivity (csumn 2 (fun r => csumn 2 (fun c => fmul (sigma i r c) (sigma j c r)))); [|apply sigma_orth; assumption].
  unfold tr2. apply csumn_ext. intros a Ha. apply csumn_ext. intros b Hb. rewrite !pauli1 by assumption. reflexivity.
Qed.
Lemma tr2_sum d A n f B : tr2 d A (fun r c => csumn n (fun p => fmul (f p) (B p r c))) = csumn n (fun p => fmul (f p) (tr2 d A (B p))).
Proof.
  unfold tr2. transitivity (csumn d (fun a => csumn n (fun p => fmul (f p) (csumn d (fun b => fmul (A a b) (B p b a)))))).
  - apply csumn_ext. intros a _. rewrite <- (csumn_ext n _ _ (fun p _ => csumn_mul d (f p) (fun b => fmul (A a b) (B p b a)))). rewrite csumn_swap. apply csumn_ext. intros b _. rewrite <- csumn_mul. apply csumn_ext. intros p _. ring.
  - rewrite csumn_swap. apply csumn_ext. intros p _. apply csumn_mul.
Qed.
Lemma tr2_scale d A k B : tr2 d A (fun r c => fmul k (B r c)) = fmul k (tr2 d A B).
Proof. unfold tr2. rewrite <- csumn_mul. apply csumn_ext. intros a _. rewrite <- csumn_mul. apply csumn_ext. intros b _. ring. Qed.
Lemma tr2_comm d A B : tr2 d A B = tr2 d B A.
Proof. unfold tr2. rewrite csumn_swap. apply csumn_ext. intros a _. apply csumn_ext. intros b _. ring. Qed.
Definition rs2 : C := RtoC (/ sqrt 2).
Lemma rs2_two : fmul rs2 (fmul rs2 (RtoC 2)) = f1.
Proof. unfold rs2. change (fmul ?a ?b) with (Cmult a b). change (fmul ?a ?b) with (Cmult a b). rewrite <- !RtoC_mult, <- Rmult_assoc, s2s. apply injective_projections; cbn; lra. Qed.
Lemma tr2_operator j v : j < 4 -> tr2 2 (pauli_op 1 j) (operator_of v) = fmul rs2 (fmul (RtoC 2) (v j)).
Proof.
  intros Hj. unfold operator_of. fold rs2. rewrite tr2_scale. f_equal. rewrite (tr2_sum 2 _ 4 v (pauli_op 1)).
  rewrite <- (csumn_pick 4 j (fun k => fmul (RtoC 2) (v k))) by exact Hj. apply csumn_ext. intros k Hk. rewrite tr2_pauli1 by assumption. destruct (j =? k); ring.
Qed.
Lemma operator_apply G v v' : (forall i, i < 4 -> v' i = csumn 4 (fun j => fmul (G i j) (v j))) -> forall r c, transfer 1 G (operator_of v) r c = operator_of v' r c.
Proof.
  intros H r c. unfold transfer. change (2 ^ 1) with 2. change (4 ^ 1) with 4. unfold operator_of at 2. fold rs2.
  transitivity (fmul (finv (RtoC 2)) (csumn 4 (fun i => fmul (fmul (fmul rs2 (RtoC 2)) (v' i)) (pauli_op 1 i r c)))).
  - rewrite (Field_theory.Fdiv_def fth). replace (RtoC (INR 2)) with (RtoC 2) by (f_equal; cbn; lra). transitivity (fmul (finv (RtoC 2)) (csumn 4 (fun i => csumn 4 (fun j => fmul (fmul (G i j) (tr2 2 (pauli_op 1 j) (operator_of v))) (pauli_op 1 i r c))))); [ring|]. f_equal. apply csumn_ext. intros i Hi. rewrite H by exact Hi. rewrite <- csumn_mul, <- csumn_mul_r. apply csumn_ext. intros j Hj. rewrite tr2_operator by exact Hj. ring.
  - rewrite <- !csumn_mul. apply csumn_ext. intros i Hi. assert (Z : RtoC 2 <> f0) by (intros E; apply RtoC_inj in E; lra). field. exact Z.
Qed.
Lemma born_seq E rho Gs e r gs : same_entries 2 E (operator_of e) -> same_entries 2 rho (operator_of r) -> Forall2 (same_entries 4) Gs gs -> born E rho Gs = seq_prob 4 e r gs.
Proof.
  intros HE Hr HG. unfold born. assert (K : forall v X, same_entries 2 X (operator_of v) -> same_entries 2 (fold_left (fun X G => transfer 1 G X) Gs X) (operator_of (after 4 gs v))).
  { clear HE Hr. induction HG as [|G g Gs gs H _ IH]; intros v X HX; [exact HX|]. cbn [fold_left after]. change (fold_left _ gs ?w) with (after 4 gs w). apply IH. intros a b Ha Hb.
    rewrite <- (operator_apply g v); [|intros i Hi; reflexivity]. unfold transfer. f_equal. apply csumn_ext. intros i Hi. apply csumn_ext. intros j Hj. change (4 ^ 1) with 4 in *. rewrite H by assumption. f_equal. f_equal. apply tr2_ext; [intros x y _ _; reflexivity|exact HX]. }
  rewrite (tr2_ext 2 _ _ _ _ HE (K r rho Hr)). unfold seq_prob. set (w := after 4 gs r). rewrite tr2_comm.
  assert (X : tr2 2 (operator_of w) (operator_of e) = csumn 4 (fun p => fmul (e p) (w p))).
  { unfold operator_of at 2. fold rs2. rewrite tr2_scale. rewrite (tr2_sum 2 _ 4 e (pauli_op 1)). rewrite <- csumn_mul. apply csumn_ext. intros p Hp. rewrite tr2_comm, tr2_operator by exact Hp. pose proof rs2_two as T. transitivity (fmul (fmul rs2 (fmul rs2 (RtoC 2))) (fmul (e p) (w p))); [ring|]. rewrite T. ring. }
  exact X.
Qed.

(** ** Dictionaries *)
Lemma dict_of_other {V} (l : list (pystr * V)) : forall d k, ~ In k (map fst l) -> dget (fold_left (fun d kv => dset d (fst kv) (snd kv)) l d) k = dget d k.
Proof.
  induction l as [|[a v] l IH]; intros d k H; [reflexivity|]. cbn [fold_left map fst snd] in *. rewrite IH by (intros K; apply H; now right). rewrite dget_dset. destruct (eqb_spec k a) as [->|]; [destruct H; now left|reflexivity].
Qed.
Lemma dict_of_get {V} (l : list (pystr * V)) k v : NoDup (map fst l) -> In (k, v) l -> dget (dict_of l) k = Some v.
Proof.
  intros ND. unfold dict_of. generalize (@nil (pystr * V)). induction l as [|[a w] l IH]; intros d H; [destruct H|]. cbn [map fst] in ND. apply NoDup_cons_iff in ND. destruct ND as [N1 N2]. cbn [fold_left fst snd]. destruct H as [E|H].
  - injection E as -> ->. rewrite dict_of_other by exact N1. rewrite dget_dset. destruct (eqb_spec k k); [reflexivity|congruence].
  - apply IH; assumption.
Qed.
Lemma dict_of_some {V} (P : V -> Prop) (l : list (pystr * V)) : Forall (fun kv => P (snd kv)) l -> forall d k, (In k (map fst l) \/ exists v, dget d k = Some v /\ P v) ->
  exists v, dget (fold_left (fun d kv => dset d (fst kv) (snd kv)) l d) k = Some v /\ P v.
Proof.
  induction 1 as [|[a w] l H _ IH]; intros d k K; [destruct K as [[]|K]; exact K|]. cbn [fold_left map fst snd] in *. apply IH. destruct K as [[->|K]|(v & K & Pv)].
  - right. exists w. split; [|exact H]. rewrite dget_dset. destruct (eqb_spec k k); [reflexivity|congruence].
  - now left.
  - right. destruct (eqb_spec k a) as [->|N]; [exists w|exists v]; (split; [|assumption]); rewrite dget_dset; [destruct (eqb_spec a a); [reflexivity|congruence]|destruct (eqb_spec k a); [contradiction|exact K]].
Qed.

(** ** The objective function *)
Section Obj.
Variables (Gs names : list pystr) (Fs : dict pystr (list pystr)) (ops : pystr -> list pystr) (probs : pyval -> option R) (data : pystr -> pystr -> pystr -> R).
Hypothesis Hs : spam_of Gs names Fs ops.
Hypothesis Hd : forall fj g fi, In fj names -> In g Gs -> In fi names -> probs (VTup [VStr fj; VStr g; VStr fi]) = Some (data fj g fi).
Definition refers (i : nat) (g : pystr) : Prop := nth_error Gs i = Some g.
Definition good (i j k : nat) (t : list nat * R) : Prop := snd t = data (nth j names []) (nth k Gs []) (nth i names []) /\ Forall2 refers (fst t) (ops (nth j names []) ++ [nth k Gs []] ++ ops (nth i names [])).
Lemma idx_refers l : incl l Gs -> exists is_, mapM (fun g => match list_index Gs g with Some i => Ok i | None => Err ValueError end) l = Ok is_ /\ Forall2 refers is_ l.
Proof.
  intros H. destruct (mapM_total (fun g => match list_index Gs g with Some i => Ok i | None => Err ValueError end) (fun g i => refers i g) l) as (is_ & E & H2).
  - intros g Hg. apply H in Hg. destruct (list_index Gs g) as [i|] eqn:Ei; [|apply list_index_None in Ei; contradiction]. exists i. split; [reflexivity|]. apply list_index_nth in Ei. exact Ei.
  - exists is_. split; [exact E|]. clear - H2. induction H2; constructor; assumption.
Qed.
Lemma terms_lemma : exists tv, obj_terms Gs names Fs probs = Ok (flat_map (fun i => flat_map (fun j => map (tv i j) (seq 0 (length Gs))) (seq 0 (length names))) (seq 0 (length names))) /\
  forall i j k, i < length names -> j < length names -> k < length Gs -> good i j k (tv i j k).
Proof.
  destruct Hs as [Hlen Hops]. unfold obj_terms. rewrite <- Hlen.
  set (term := fun i j k => do Fi <- index_e names i; do Fj <- index_e names j; do G <- index_e Gs k;
        do p <- match probs (key3 Fj G Fi) with Some p => Ok p | None => Err KeyError end;
        do fi <- dget_e Fs Fi; do fi <- mapM (fun g => match list_index Gs g with Some i => Ok i | None => Err ValueError end) fi;
        do fj <- dget_e Fs Fj; do fj <- mapM (fun g => match list_index Gs g with Some i => Ok i | None => Err ValueError end) fj;
        Ok (fj ++ [k] ++ fi, p)).
  assert (T : forall i j k, i < length names -> j < length names -> k < length Gs -> exists t, term i j k = Ok t /\ good i j k t).
  { intros i j k Hi Hj Hk. unfold term. rewrite (index_nth names i []), (index_nth names j []), (index_nth Gs k []) by assumption. cbn [bind].
    assert (Ni : In (nth i names []) names) by (now apply nth_In). assert (Nj : In (nth j names []) names) by (now apply nth_In). assert (Nk : In (nth k Gs []) Gs) by (now apply nth_In).
    unfold key3. rewrite Hd by assumption. cbn [bind]. destruct (Hops _ Ni) as [Ei Ii], (Hops _ Nj) as [Ej Ij]. unfold dget_e. rewrite Ei. cbn [bind].
    destruct (idx_refers _ Ii) as (li & Eli & Rli). rewrite Eli. cbn [bind]. rewrite Ej. cbn [bind].
    destruct (idx_refers _ Ij) as (lj & Elj & Rlj). rewrite Elj. cbn [bind]. eexists. split; [reflexivity|]. split; [reflexivity|]. cbn [fst].
    apply Forall2_app; [exact Rlj|]. apply Forall2_app; [|exact Rli]. constructor; [|constructor]. unfold refers. apply nth_error_nth'. exact Hk. }
  set (tv := fun (x y z : nat) => match term x y z with Ok t => t | Err _ => ([], 0%R) end). exists tv.
  assert (T1 : forall i j, i < length names -> j < length names -> mapM (term i j) (seq 0 (length Gs)) = Ok (map (tv i j) (seq 0 (length Gs)))).
  { intros i j Hi Hj. apply mapM_ok. intros k Hk. apply in_seq in Hk. unfold tv. destruct (T i j k Hi Hj ltac:(lia)) as (t & -> & _). reflexivity. }
  assert (T2 : forall i, i < length names -> mapM (fun j => mapM (term i j) (seq 0 (length Gs))) (seq 0 (length names)) = Ok (map (fun j => map (tv i j) (seq 0 (length Gs))) (seq 0 (length names)))).
  { intros i Hi. apply mapM_ok. intros j Hj. apply in_seq in Hj. apply T1; lia. }
  assert (T3 : mapM (fun i => mapM (fun j => mapM (term i j) (seq 0 (length Gs))) (seq 0 (length names))) (seq 0 (length names)) = Ok (map (fun i => map (fun j => map (tv i j) (seq 0 (length Gs))) (seq 0 (length names))) (seq 0 (length names)))).
  { apply mapM_ok. intros i Hi. apply in_seq in Hi. apply T2; lia. }
  unfold term in T3 at 1. rewrite T3. cbn [bind]. split.
  - rewrite map_map. f_equal. rewrite !flat_map_concat_map. f_equal. apply map_ext. intros i. rewrite flat_map_concat_map. reflexivity.
  - intros i j k Hi Hj Hk. unfold tv. destruct (T i j k Hi Hj Hk) as (t & -> & H). exact H.
Qed.

Variables (q : nat) (x : list R) (E rho : list C) (ms : list cmat).
Hypothesis Hx : split_input_vector q (length Gs) x = Ok (E, rho, ms).
Hypothesis Hm : length ms = length Gs.
Hypothesis Hc : Forall (fun m => m_cols m = 4 ^ q) ms.
Variable G : pystr -> nat -> nat -> C.
Definition cz : cmat := {| m_rows := 0; m_cols := 0; m_at := fun _ _ => RtoC 0 |}.
Hypothesis HG : forall i g, nth_error Gs i = Some g -> G g = m_at (nth i ms cz).
Lemma run_indices is_ gs v : Forall2 refers is_ gs -> foldM (fun v g => do G <- index_e ms g; Ok (cmat_apply G v)) is_ v = Ok (after (4 ^ q) (map G gs) v).
Proof.
  intros H. revert v. induction H as [|i g is_ gs Hi _ IH]; intros v; [reflexivity|]. cbn [foldM map]. assert (L : i < length ms) by (rewrite Hm; apply nth_error_Some; unfold refers in Hi; congruence).
  rewrite (index_nth ms i cz) by exact L. cbn [bind]. rewrite IH. cbn [after fold_left]. change (fold_left _ (map G gs) ?w) with (after (4 ^ q) (map G gs) w). f_equal. f_equal. unfold cmat_apply, mapply. rewrite Forall_forall in Hc. rewrite (Hc (nth i ms cz)) by (apply nth_In; exact L). rewrite (HG i g Hi). reflexivity.
Qed.
Definition one_error (t : list pystr * R) : R := let y := (fst (seq_prob (4 ^ q) (fun i => nth i E (RtoC 0)) (fun i => nth i rho (RtoC 0)) (map G (fst t))) - snd t)%R in (y * y)%R.
Lemma obj_run (terms : list (list nat * R)) ts : Forall2 (fun t u => Forall2 refers (fst t) (fst u) /\ snd t = snd u) terms ts -> mle_obj q (length Gs) terms x = Ok (fsum (HF:=Fld_R) (map one_error ts)).
Proof.
  intros H. unfold mle_obj. rewrite Hx. cbn [bind].
  assert (K : forall v0, foldM (fun val term =>
        do v <- foldM (fun v g => do G <- index_e ms g; Ok (cmat_apply G v)) (fst term) (fun i => nth i rho (RtoC 0));
        let t := (fst (sum_to ((2 ^ q) ^ 2) (fun i => Cmult (nth i E (RtoC 0)) (v i))) - snd term)%R in
        Ok (val + t ^ 2)%R) terms v0 = Ok (v0 + fsum (HF:=Fld_R) (map one_error ts))%R).
  { induction H as [|t u terms ts [H1 H2] _ IH]; intros v0.
    - cbn [foldM map]. rewrite fsum_nil. cbn. f_equal. lra.
    - cbn [foldM map]. rewrite (run_indices _ _ _ H1). cbn [bind]. rewrite IH. f_equal. rewrite fsum_cons. unfold one_error at 2. rewrite ds_pow, H2. unfold seq_prob. change (fadd ?a ?b) with (a + b)%R. rewrite <- Rplus_assoc. f_equal. f_equal.
      rewrite sum_to_csumn. unfold csumn. repeat change (Cmult ?a ?b) with (fmul a b). ring. }
  rewrite K. f_equal. lra.
Qed.
Lemma error_list tv : (forall i j k, i < length names -> j < length names -> k < length Gs -> good i j k (tv i j k)) ->
  mle_obj q (length Gs) (flat_map (fun i => flat_map (fun j => map (tv i j) (seq 0 (length Gs))) (seq 0 (length names))) (seq 0 (length names))) x =
  Ok (real_error (4 ^ q) Gs names ops data (fun i => nth i E (RtoC 0)) (fun i => nth i rho (RtoC 0)) G).
Proof.
  intros T. set (us := flat_map (fun fi => flat_map (fun fj => map (fun g => (ops fj ++ [g] ++ ops fi, data fj g fi)) Gs) names) names).
  rewrite (obj_run _ us).
  - f_equal. unfold real_error, us. f_equal. rewrite !flat_map_concat_map, concat_map, map_map. f_equal. apply map_ext. intros fi. rewrite !flat_map_concat_map, concat_map, map_map. f_equal. apply map_ext. intros fj. rewrite map_map. reflexivity.
  - unfold us. rewrite <- (flat_seq names _ []). rewrite !flat_map_concat_map. 
    assert (FC : forall {A B} (P : A -> B -> Prop) a b, Forall2 (Forall2 P) a b -> Forall2 P (concat a) (concat b)) by (intros A B P a b HH; induction HH; cbn; [constructor|apply Forall2_app; assumption]).
    assert (FM : forall {A B} (P : A -> B -> Prop) (f : nat -> A) (g : nat -> B) l, (forall i, In i l -> P (f i) (g i)) -> Forall2 P (map f l) (map g l)) by (intros A B P f g l HH; induction l; cbn; constructor; [apply HH; now left|apply IHl; intros; apply HH; now right]).
    apply FC. apply FM. intros i Hi. apply in_seq in Hi. rewrite <- (flat_seq names _ []). rewrite !flat_map_concat_map. apply FC. apply FM. intros j Hj. apply in_seq in Hj.
    rewrite <- (map_nth_seq Gs []) at 2. rewrite map_map. apply FM. intros k Hk. apply in_seq in Hk. destruct (T i j k ltac:(lia) ltac:(lia) ltac:(lia)) as [T1 T2]. split; [exact T2|exact T1].
Qed.
End Obj.

(** ** The whole fit *)
Lemma length_join schur q E rho Gs : length E = 4 ^ q -> length rho = 4 ^ q -> Forall (fun G => m_rows G = 4 ^ q /\ m_cols G = 4 ^ q) Gs ->
  exists x, join_input_vector schur q E rho Gs = Ok x /\ length x = vec_length q (length Gs).
Proof.
  intros HE Hr HG. unfold join_input_vector. destruct (reshape_ok E (2 ^ q) (2 ^ q)) as (e & Ee); [rewrite HE, pow4_sq; reflexivity|]. destruct (reshape_ok rho (2 ^ q) (2 ^ q)) as (r & Er); [rewrite Hr, pow4_sq; reflexivity|]. rewrite Ee, Er. cbn [bind].
  destruct (flat_reshape _ _ _ _ Ee) as (_ & Re & _ & _). destruct (flat_reshape _ _ _ _ Er) as (_ & Rr & _ & _).
  destruct (mapM_total choi_of_ptm (fun _ k => m_rows k = 4 ^ q) Gs) as (ks & Ek & Hk).
  { intros G HG'. rewrite Forall_forall in HG. destruct (HG G HG') as [A B]. destruct (choi_spec G q A B) as (k & K1 & K2 & _). eauto. }
  rewrite Ek. cbn [bind]. eexists. split; [reflexivity|].
  assert (LC : forall m, length (complex_matrix_to_vec (cholesky_like schur m)) = 2 * (m_rows m * m_rows m)) by (intros m; rewrite length_vec; unfold cholesky_like; destruct (schur m); reflexivity).
  assert (LF : forall acc, length (fold_left (fun acc k => acc ++ complex_matrix_to_vec (cholesky_like schur k)) ks acc) = length acc + length Gs * (2 * 16 ^ q)).
  { clear - LC Hk. induction Hk as [|G k Gs ks H _ IH]; intros acc; cbn [fold_left length]; [lia|]. rewrite IH, app_length, LC, H, pow16. lia. }
  rewrite LF, app_length, !LC, Re, Rr, pow4_sq. unfold vec_length. lia.
Qed.

Lemma RtoC_seq_prob d E rho Ms : RtoC (seq_prob d E rho Ms) = seq_prob d (fun i => RtoC (E i)) (fun i => RtoC (rho i)) (map (fun M i j => RtoC (M i j)) Ms).
Proof.
  assert (A : forall Ms v w, (forall i, i < d -> w i = RtoC (v i)) -> forall i, i < d -> after d (map (fun M i j => RtoC (M i j)) Ms) w i = RtoC (after d Ms v i)).
  { clear. induction Ms as [|M Ms IH]; intros v w H i Hi; [apply H, Hi|]. cbn [map after fold_left]. change (fold_left _ (map _ Ms) ?u) with (after d (map (fun (M : nat -> nat -> R) i j => RtoC (M i j)) Ms) u). change (fold_left _ Ms ?u) with (after d Ms u). apply IH; [|exact Hi]. intros j Hj.
    unfold mapply. rewrite RtoC_fsum. apply fsum_map_ext. intros k Hk. apply in_seq in Hk. rewrite H by lia. symmetry. exact (RtoC_mult (M j k) (v k)). }
  unfold seq_prob. rewrite RtoC_fsum. apply fsum_map_ext. intros k Hk. apply in_seq in Hk. rewrite (A Ms rho) by (intros; try reflexivity; lia). exact (RtoC_mult _ _).
Qed.
Lemma seq_prob_ext {F} {HF : Fld F} d (E E' rho rho' : nat -> F) Ms Ms' : (forall i, i < d -> E i = E' i) -> (forall i, i < d -> rho i = rho' i) -> Forall2 (fun M M' => forall i j, i < d -> j < d -> M i j = M' i j) Ms Ms' ->
  seq_prob d E rho Ms = seq_prob d E' rho' Ms'.
Proof.
  intros HE Hr HM. assert (A : forall v w, (forall i, i < d -> v i = w i) -> forall i, i < d -> after d Ms v i = after d Ms' w i).
  { clear HE Hr. induction HM as [|M M' Ms Ms' H _ IH]; intros v w Hv i Hi; [apply Hv, Hi|]. cbn [after fold_left]. change (fold_left _ Ms' ?u) with (after d Ms' u). change (fold_left _ Ms ?u) with (after d Ms u). apply IH; [|exact Hi]. intros j Hj. apply mapply_idx; auto. }
  unfold seq_prob. apply fsum_map_ext. intros k Hk. apply in_seq in Hk. rewrite HE, (A rho rho' Hr) by lia. reflexivity.
Qed.
Lemma fsum_nonneg l : Forall (fun v => (0 <= v)%R) l -> (0 <= fsum (HF:=Fld_R) l)%R.
Proof. induction 1 as [|a l H _ IH]; [rewrite fsum_nil; cbn; lra|]. rewrite fsum_cons. change (fadd ?a ?b) with (a + b)%R. lra. Qed.
Lemma fsum_zero_all l : Forall (fun v => (0 <= v)%R) l -> (fsum (HF:=Fld_R) l <= 0)%R -> Forall (fun v => v = 0%R) l.
Proof.
  induction 1 as [|a l H Hl IH]; intros Z; [constructor|]. rewrite fsum_cons in Z. change (fadd ?a ?b) with (a + b)%R in Z. pose proof (fsum_nonneg l Hl). constructor; [lra|]. apply IH. lra.
Qed.
Lemma error_terms d Gs names ops data E rho G : (real_error d Gs names ops data E rho G <= 0)%R ->
  forall fj g fi, In fj names -> In g Gs -> In fi names -> fst (seq_prob d E rho (map G (ops fj ++ [g] ++ ops fi))) = data fj g fi.
Proof.
  intros H fj g fi Hj Hg Hi. apply fsum_zero_all in H.
  - rewrite Forall_forall in H. specialize (H _ (proj2 (in_flat_map _ _ _) (ex_intro _ fi (conj Hi (proj2 (in_flat_map _ _ _) (ex_intro _ fj (conj Hj (in_map _ _ g Hg)))))))). cbv zeta in H. apply Rsqr_0_uniq in H. lra.
  - apply Forall_forall. intros v Hv. apply in_flat_map in Hv. destruct Hv as (a & _ & Hv). apply in_flat_map in Hv. destruct Hv as (b & _ & Hv). apply in_map_iff in Hv. destruct Hv as (c & <- & _). cbv zeta. apply Rle_0_sqr.
Qed.
Lemma error_zero d Gs names ops data E rho G : (forall fj g fi, In fj names -> In g Gs -> In fi names -> fst (seq_prob d E rho (map G (ops fj ++ [g] ++ ops fi))) = data fj g fi) ->
  real_error d Gs names ops data E rho G = 0%R.
Proof.
  intros H. unfold real_error. transitivity (fsum (HF:=Fld_R) (map (fun _ => 0%R) (flat_map (fun fi => flat_map (fun fj => map (fun g : pystr => g) Gs) names) names))).
  - f_equal. rewrite !flat_map_concat_map, concat_map, map_map. f_equal. apply map_ext_in. intros fi Hi. rewrite !flat_map_concat_map, concat_map, map_map. f_equal. apply map_ext_in. intros fj Hj. rewrite map_map. apply map_ext_in. intros g Hg. cbv zeta. rewrite H by assumption. lra.
  - refine (fsum_map_zero' (HF:=Fld_R) _ _ _). intros; reflexivity.
Qed.

Section Fit.
Variable schur : cmat -> (nat -> nat -> C) * (nat -> nat -> C).
Variable np_inv : nat -> rmat -> option rmat.
Variable gauge_minimize : (rmat -> result R) -> rmat -> rmat.
Variable mle_minimize : mle_problem -> list R -> list R.
Variables (gates spam : list pystr) (mats : dict pystr rmat) (spec : dict pystr (list pystr)) (ops : pystr -> list pystr) (probs : pyval -> option R).
Variables (E0 rho0 : nat -> R) (G0 S0 : pystr -> rmat).
Hypothesis N4 : length spam = 4.
Hypothesis ND : NoDup gates.
Hypothesis Hs : spam_of gates spam spec ops.
Hypothesis Hne : forall f, In f spam -> ops f <> [].
Hypothesis Hmats : forall g, In g gates -> exists m, dget mats g = Some m.
Hypothesis Had : admissible gates E0 rho0 G0.
Hypothesis Hex : exact_gst 4 spam gates E0 rho0 G0 S0 probs.
Hypothesis Hord : in_order spam ops G0 S0.
Hypothesis Hinv : forall M, (forall i j, i < 4 -> j < 4 -> M i j = gram_matrix 4 spam E0 rho0 S0 i j) -> exists X, np_inv 4 M = Some X /\ inverse_of 4 X M.
Hypothesis Hstart : forall Fs, mapM (spam_matrix 4 mats spec) spam = Ok Fs -> np_inv 4 (gauge_start 4 Fs default_vec) <> None.
Hypothesis Hgauge : forall f x0, (exists v, f x0 = Ok v) -> exists v, f (gauge_minimize f x0) = Ok v.
Hypothesis HsE : schur_on schur 2 (square 2 (cvec4 E0)).
Hypothesis Hsr : schur_on schur 2 (square 2 (cvec4 rho0)).
Hypothesis HsG : Forall (fun g => schur_on schur 4 (choi_matrix 1 (m_at (cptm4 (G0 g))))) gates.
Hypothesis Hmle : forall terms x0, obj_terms gates spam spec probs = Ok terms -> let p := mle_problem_of 1 (length gates) terms in solution (mp_obj p) (mp_eq p) (mp_ineq p) (mle_minimize p x0).
Definition truth (fj g fi : pystr) : R := seq_prob 4 E0 rho0 (map G0 (ops fj ++ [g] ++ ops fi)).

Lemma data_truth fj g fi : In fj spam -> In g gates -> In fi spam -> probs (VTup [VStr fj; VStr g; VStr fi]) = Some (truth fj g fi).
Proof.
  clear N4 ND Hs Hne Hmats Had.
  intros Hj Hg Hi. destruct Hex as (_ & _ & H3). rewrite H3 by assumption. f_equal. unfold truth, seq_prob. apply fsum_map_ext. intros k Hk. apply in_seq in Hk. f_equal. rewrite !map_app. unfold after. rewrite !fold_left_app. cbn [map fold_left].
  rewrite (Hord fi Hi) by lia. apply (after_ext 4 (map G0 (ops fi))); [|lia]. intros l Hl. apply mapply_idx; auto. intros m Hm. apply (Hord fj Hj). exact Hm.
Qed.
Lemma ideal_ok : exists ideal, ideal_gateset gates mats 4 = Ok ideal /\ ge_rho ideal = default_vec /\ ge_E ideal = default_vec /\ forall g, In g gates -> exists m, dget (ge_gates ideal) g = Some m /\ dget mats g = Some m.
Proof.
  unfold ideal_gateset. destruct (mapM_total (fun l => do m <- dget_e mats l; Ok (l, m)) (fun l lm => fst lm = l /\ dget mats l = Some (snd lm)) gates) as (gs & Eg & Hg).
  { intros l Hl. destruct (Hmats l Hl) as (m & E). exists (l, m). unfold dget_e. rewrite E. cbn [bind]. auto. }
  rewrite Eg. cbn [bind Nat.eqb]. eexists. split; [reflexivity|]. cbn [ge_gates ge_E ge_rho]. split; [reflexivity|]. split; [reflexivity|].
  assert (K : map fst gs = gates) by (clear - Hg; induction Hg as [|a b l l' [E _] _ IH]; cbn; congruence).
  intros g Hin. destruct (Forall2_in_l _ _ _ g Hg Hin) as ([g' m] & Hm & E1 & E2). cbn [fst snd] in *. subst g'. exists m. split; [|exact E2]. apply dict_of_get; [rewrite K; exact ND|exact Hm].
Qed.
Lemma spam_ok : exists Fs, mapM (spam_matrix 4 mats spec) spam = Ok Fs /\ length Fs = 4.
Proof.
  destruct (mapM_total (spam_matrix 4 mats spec) (fun _ _ => True) spam) as (Fs & E & H).
  - intros f Hf. destruct Hs as [_ Ho]. destruct (Ho f Hf) as [E I]. unfold spam_matrix, dget_e at 1. rewrite E. cbn [bind].
    destruct (mapM_total (dget_e mats) (fun _ _ => True) (ops f)) as (l & El & Hl). { intros g Hg. apply I in Hg. destruct (Hmats g Hg) as (m & Em). exists m. unfold dget_e. rewrite Em. auto. }
    rewrite El. cbn [bind]. destruct l as [|a l]; [|eauto]. exfalso. apply (Hne f Hf). inversion Hl. reflexivity.
  - exists Fs. split; [exact E|]. rewrite <- N4. symmetry. exact (Forall2_length' _ _ _ H).
Qed.
Lemma gauge_ok ideal li : ge_rho ideal = default_vec -> (forall g, In g gates -> exists m, dget (ge_gates ideal) g = Some m) -> (forall g, In g gates -> exists m, dget (ge_gates li) g = Some m) ->
  exists g, gauge_optimize np_inv gauge_minimize 4 gates spam mats spec ideal li = Ok (Some g) /\ forall l, In l gates -> exists m, dget (ge_gates g) l = Some m.
Proof.
  intros Hr Hid Hli. unfold gauge_optimize. destruct spam_ok as (Fs & E & L). rewrite E. cbn [bind]. rewrite L. cbn [Nat.eqb negb]. rewrite Hr.
  set (f := gauge_obj np_inv 4 gates ideal li). set (x0 := gauge_start 4 Fs default_vec).
  assert (D : forall X B (gs : dict pystr rmat) g m, dget gs g = Some m -> exists m', dget (map (fun kv => (fst kv, mmul (seq 0 4) (mmul (seq 0 4) X (snd kv)) B)) gs) g = Some m').
  { intros X B gs g m. induction gs as [|[k m'] gs IH]; cbn; [discriminate|]. destruct (eqb g k); [eauto|exact IH]. }
  assert (F0 : exists v, f x0 = Ok v).
  { unfold f, gauge_obj, x_to_gateset. destruct (np_inv 4 x0) as [X|] eqn:EX; [|destruct (Hstart Fs E EX)]. cbn [ge_gates].
    match goal with |- exists v, bind ?m _ = _ => assert (M : exists l, m = Ok l) end.
    {      match goal with |- exists l, mapM ?h ?l0 = _ => destruct (mapM_total h (fun _ _ => True) l0) as (l & El & _) end; [|eauto].
      intros g Hg. destruct (Hli g Hg) as (m & Em). destruct (D X x0 _ _ _ Em) as (m' & Em'). destruct (Hid g Hg) as (mi & Emi). unfold dget_e. rewrite Em'. cbn [bind]. rewrite Emi. cbn [bind]. eauto. }
    destruct M as (l & ->). cbn [bind]. eauto. }
  destruct F0 as (v0 & F0). rewrite F0. cbn [bind]. destruct (Hgauge f x0 (ex_intro _ v0 F0)) as (v & Fv). unfold f, gauge_obj in Fv.
  destruct (x_to_gateset np_inv 4 (ge_gates li) (ge_E li) (ge_rho li) (gauge_minimize f x0)) as [g|] eqn:EG; [|unfold f in EG; unfold gauge_obj in EG; rewrite EG in Fv; discriminate].
  exists g. split; [reflexivity|]. intros l Hl. unfold x_to_gateset in EG. destruct (np_inv 4 (gauge_minimize f x0)) as [X|]; [|discriminate]. injection EG as <-. cbn [ge_gates]. destruct (Hli l Hl) as (m & Em). eapply D. exact Em.
Qed.

Section Vectors.
Variable tv : nat -> nat -> nat -> list nat * R.
Hypothesis Ht : forall i j k, i < length spam -> j < length spam -> k < length gates -> good gates spam ops truth i j k (tv i j k).
Local Notation terms := (flat_map (fun i => flat_map (fun j => map (tv i j) (seq 0 (length gates))) (seq 0 (length spam))) (seq 0 (length spam))).
(** Every vector that can be decoded has a value. *)
Lemma vector_value x E rho Gs : split_input_vector 1 (length gates) x = Ok (E, rho, Gs) -> forall G, (forall i g, nth_error gates i = Some g -> G g = m_at (nth i Gs cz)) ->
  mle_obj 1 (length gates) terms x = Ok (real_error 4 gates spam ops truth (fun i => nth i E (RtoC 0)) (fun i => nth i rho (RtoC 0)) G).
Proof.
  intros Sx G HG. assert (Hl : length x = vec_length 1 (length gates)) by (destruct (Nat.eq_dec (length x) (vec_length 1 (length gates))) as [e|N]; [exact e|rewrite decoding_error in Sx by exact N; discriminate]).
    destruct (decoding_lemma 1 _ _ Hl) as (E' & rho' & Gs' & S & Ln & EX). rewrite Sx in S. injection S as <- <- <-.
    apply (error_list gates spam ops truth 1 x E rho Gs Sx Ln); [|exact HG|exact Ht]. apply (Forall_impl _ (fun m (H : m_rows m = 4 ^ 1 /\ m_cols m = 4 ^ 1 /\ _) => proj1 (proj2 H)) (ex_Gs _ _ _ _ EX)).
Qed.
Lemma gate_names (Gs : list cmat) : exists G : pystr -> nat -> nat -> C, forall i g, nth_error gates i = Some g -> G g = m_at (nth i Gs cz).
Proof.
  exists (fun g => match list_index gates g with Some i => m_at (nth i Gs cz) | None => fun _ _ => RtoC 0 end). intros i g Hi. destruct (list_index gates g) as [j|] eqn:Ej.
    - apply list_index_nth in Ej. rewrite NoDup_nth_error in ND. f_equal. f_equal. apply ND; [apply nth_error_Some; congruence|congruence].
    - apply list_index_None in Ej. exfalso. apply Ej. apply (nth_error_In _ _ Hi). 
Qed.
(** The true gate set meets the constraints and predicts the data. *)
Lemma truth_solves : exists y, let P := mle_problem_of 1 (length gates) terms in feasible (mp_eq P) (mp_ineq P) y /\ mp_obj P y = Ok 0%R.
Proof.
  clear N4 Hne Hmats Hex Hord Hinv Hstart Hgauge Hmle.
  destruct Had as [AE AG AT]. destruct (encoding_lemma schur 1 _ _ _ AE HsE Hsr) as (y & E' & rho' & Gs' & _ & Ly & Sy & -> & -> & HGs). { apply Forall_map. exact HsG. }
  rewrite map_length in Ly, Sy.
  assert (HGs' : forall i g, nth_error gates i = Some g -> exists M, nth_error Gs' i = Some M /\ same_entries 4 (m_at M) (m_at (cptm4 (G0 g)))).
  { intros i g Hi. assert (Lg : length Gs' = length gates) by (rewrite (Forall2_length' _ _ _ HGs); apply map_length). assert (Hl : i < length Gs') by (rewrite Lg; apply nth_error_Some; congruence). exists (nth i Gs' cz). split; [apply nth_error_nth'; exact Hl|]. exact (proj2 (proj2 (Forall2_nth _ _ _ i _ _ HGs (nth_error_nth' Gs' cz Hl) (map_nth_error _ _ _ Hi)))). }
  set (P := mle_problem_of 1 (length gates) terms).
  assert (Fy : feasible (mp_eq P) (mp_ineq P) y).
  { destruct (constraints_lemma 1 _ _ _ _ _ Sy) as ((l1 & C1 & I1) & (l2 & C2 & I2)). unfold P. cbn [mle_problem_of mp_eq mp_ineq].
    assert (PG : Forall (fun M => ptm_gate 1 (m_at M)) Gs').
    { apply Forall_forall. intros M HM. destruct (Forall2_in_l _ _ _ M HGs HM) as (g' & Hg' & _ & _ & SE). apply in_map_iff in Hg'. destruct Hg' as (g & <- & Hg). rewrite Forall_forall in AG. destruct (AG g Hg) as (T1 & T2 & T3).
      assert (SE' := fun i j Hi Hj => SE i j Hi Hj). split; [|split].
      - apply trace_row. intros j Hj. rewrite SE by (try assumption; apply pow4_pos). apply (proj1 (trace_row 1 _) T1). exact Hj.
      - intros i j Hi Hj. rewrite SE by assumption. apply T2; assumption.
      - intros i j H0 Hi Hj. rewrite SE by assumption. apply T3; assumption. }
    split; repeat constructor.
    - eexists. split; [exact (trace_constraint _ _ _ _ _ Sy)|]. replace (csumn 2 (fun r : nat => operator_of (fun i : nat => nth i (cvec4 rho0) (RtoC 0)) r r)) with (csumn 2 (fun r => operator_of (fun i => RtoC (rho0 i)) r r)).
      + rewrite AT. constructor; [cbn; lra|]. constructor; [reflexivity|constructor].
      + reflexivity.
    - exists l1. split; [exact C1|]. apply I1. apply (Forall_impl _ (fun M H => conj (proj1 H) (proj1 (proj2 H))) PG).
    - exists l2. split; [exact C2|]. apply I2. apply (Forall_impl _ (fun M H => proj2 (proj2 H)) PG). }
  destruct (gate_names Gs') as (GFy & HGFy).
  assert (Vy : mp_obj P y = Ok 0%R).
  { unfold P. cbn [mle_problem_of mp_obj]. rewrite (vector_value _ _ _ _ Sy GFy HGFy). f_equal. apply error_zero. intros fj g fi Hj Hg Hi.
    assert (K : RtoC (truth fj g fi) = seq_prob 4 (fun i => nth i (cvec4 E0) (RtoC 0)) (fun i => nth i (cvec4 rho0) (RtoC 0)) (map GFy (ops fj ++ [g] ++ ops fi))).
    { unfold truth. rewrite RtoC_seq_prob. apply seq_prob_ext.
      - intros i Hi'. unfold cvec4. do 4 (destruct i as [|i]; [reflexivity|]). lia.
      - intros i Hi'. unfold cvec4. do 4 (destruct i as [|i]; [reflexivity|]). lia.
      - rewrite map_map. destruct Hs as [_ Ho]. assert (IN : incl (ops fj ++ [g] ++ ops fi) gates). { intros a Ha. apply in_app_iff in Ha. destruct Ha as [Ha|Ha]; [apply (proj2 (Ho fj Hj)), Ha|]. destruct Ha as [<-|Ha]; [exact Hg|apply (proj2 (Ho fi Hi)), Ha]. }
        revert IN. generalize (ops fj ++ [g] ++ ops fi). intros l IN. induction l as [|a l IH]; [constructor|]. cbn [map]. constructor; [|apply IH; intros b Hb; apply IN; now right].
        intros i j Hi' Hj'. destruct (In_nth_error gates a (IN a (or_introl eq_refl))) as (k & Hk). rewrite (HGFy k a Hk). destruct (HGs' k a Hk) as (M & HM & SE). rewrite (nth_error_nth _ _ cz HM). rewrite SE by assumption. reflexivity. }
    exact (eq_sym (f_equal fst K)). }
  exists y. split; assumption.
Qed.
End Vectors.

Lemma fit_lemma : exists r, gst_fit schur np_inv gauge_minimize mle_minimize gates spam mats spec probs = Ok r /\
  m_rows (gr_E r) = 2 /\ m_cols (gr_E r) = 2 /\ m_rows (gr_rho r) = 2 /\ m_cols (gr_rho r) = 2 /\
  csumn 2 (fun i => m_at (gr_rho r) i i) = f1 /\
  (forall g, In g gates -> exists M, dget (gr_gates r) g = Some M /\ m_rows M = 4 /\ m_cols M = 4 /\ ptm_gate 1 (m_at M) /\ completely_positive 1 (m_at M)) /\
  forall fj g fi Ms, In fj spam -> In g gates -> In fi spam -> Forall2 (fun g M => dget (gr_gates r) g = Some M) (ops fj ++ [g] ++ ops fi) Ms ->
    fst (born (m_at (gr_E r)) (m_at (gr_rho r)) (map m_at Ms)) = truth fj g fi.
Proof.
  unfold gst_fit. rewrite N4 in *.
  assert (Hex' : exact_gst (length spam) spam gates E0 rho0 G0 S0 probs) by (rewrite N4; exact Hex).
  destruct (inversion_explicit np_inv spam gates E0 rho0 G0 S0 probs Hex') as (li & X & Eli & _ & Hli & _); [rewrite N4; exact Hinv|].
  rewrite Eli. cbn [bind]. destruct ideal_ok as (ideal & Eid & Hr & _ & Hid). rewrite Eid. cbn [bind].
  destruct (gauge_ok ideal li Hr) as (ga & Ega & Hga). { intros g Hg. destruct (Hid g Hg) as (m & A & _). eauto. } { intros g Hg. destruct (Hli g Hg) as (m & A & _). eauto. }
  rewrite Ega. cbn [bind]. destruct (terms_lemma gates spam spec ops probs truth Hs data_truth) as (tv & Et & Ht). rewrite Et. cbn [bind]. set (terms := flat_map _ (seq 0 (length spam))).
  unfold set_initial_value. destruct (mapM_total (fun l => do m <- dget_e (ge_gates ga) l; Ok (cmat_of 4 m)) (fun _ m => m_rows m = 4 ^ 1 /\ m_cols m = 4 ^ 1) gates) as (ms0 & Em0 & Hm0).
  { intros l Hl. destruct (Hga l Hl) as (m & A). exists (cmat_of 4 m). unfold dget_e. rewrite A. cbn [bind]. repeat split. }
  rewrite Em0. cbn [bind]. assert (Lm0 : length ms0 = length gates) by (symmetry; exact (Forall2_length' _ _ _ Hm0)).
  destruct (length_join schur 1 (map (fun i => RtoC (ge_E ga i)) (seq 0 4)) (map (fun i => RtoC (ge_rho ga i)) (seq 0 4)) ms0 eq_refl eq_refl) as (x0 & Ex0 & Lx0).
  { apply Forall_forall. intros m Hm. destruct (Forall2_in_r _ _ _ m Hm0 Hm) as (? & _ & A). exact A. }
  rewrite Ex0. cbn [bind]. rewrite Lm0 in Lx0.
  pose proof (vector_value tv Ht) as V. fold terms in V.
  destruct (decoding_lemma 1 _ _ Lx0) as (E1 & r1 & G1 & S1 & _ & _). destruct (gate_names G1) as (GF1 & HGF1). cbn [mle_problem_of mp_obj]. rewrite (V _ _ _ _ S1 GF1 HGF1). cbn [bind].
  destruct (truth_solves tv Ht) as (y & Fy & Vy). fold terms in Fy, Vy. set (P := mle_problem_of 1 (length gates) terms) in *.
  assert (HM : solution (mp_obj P) (mp_eq P) (mp_ineq P) (mle_minimize P x0)) by exact (Hmle terms x0 Et). destruct HM as ((FE & FI) & v & Vx & Best). set (x := mle_minimize P x0) in *.
  assert (Lx : exists E rho Gs, split_input_vector 1 (length gates) x = Ok (E, rho, Gs)).
  { unfold P in Vx. cbn [mle_problem_of mp_obj] in Vx. unfold mle_obj in Vx. destruct (split_input_vector 1 (length gates) x) as [[[E rho] Gs]|]; [eauto|discriminate]. }
  destruct Lx as (E & rho & Gs & Sx). destruct (gate_names Gs) as (GF & HGF).
  assert (Ll : length x = vec_length 1 (length gates)) by (destruct (Nat.eq_dec (length x) (vec_length 1 (length gates))) as [e|N]; [exact e|rewrite decoding_error in Sx by exact N; discriminate]).
  destruct (decoding_lemma 1 _ _ Ll) as (E'' & rho'' & Gs'' & S & Ln & EX). rewrite Sx in S. injection S as <- <- <-.
  assert (Vx' := Vx). unfold P in Vx'. cbn [mle_problem_of mp_obj] in Vx'. rewrite (V _ _ _ _ Sx GF HGF) in Vx'. injection Vx' as Vx'.
  specialize (Best y 0%R Fy Vy). rewrite <- Vx' in Best. pose proof (error_terms _ _ _ _ _ _ _ _ Best) as Pred.
  destruct (constraints_lemma 1 _ _ _ _ _ Sx) as ((l1 & C1 & I1) & (l2 & C2 & I2)).
  unfold P in FE, FI. cbn [mle_problem_of mp_eq mp_ineq] in FE, FI. apply Forall_cons_iff in FE. destruct FE as ((t & T1 & T2) & FE). apply Forall_cons_iff in FE. destruct FE as ((l1' & C1' & Z1) & _). apply Forall_cons_iff in FI. destruct FI as ((l2' & C2' & Z2) & _).
  rewrite C1 in C1'. injection C1' as <-. rewrite C2 in C2'. injection C2' as <-. apply I1 in Z1. apply I2 in Z2. rewrite (trace_constraint _ _ _ _ _ Sx) in T1. injection T1 as <-.
  unfold process_result. rewrite Sx. cbn [bind]. destruct (convert_ok E (ex_lenE _ _ _ _ EX)) as (e & Ee & Re & Ce & Ae). destruct (convert_ok rho (ex_lenrho _ _ _ _ EX)) as (r & Er & Rr & Cr & Ar). rewrite Ee, Er. cbn [bind].
  rewrite (mapM_ok _ (fun i => (nth i gates [], nth i Gs cz))).
  2:{ intros i Hi. apply in_seq in Hi. rewrite (index_nth gates i []), (index_nth Gs i cz) by lia. reflexivity. }
  cbn [bind]. eexists. split; [reflexivity|]. cbn [gr_E gr_rho gr_gates]. split; [exact Re|]. split; [exact Ce|]. split; [exact Rr|]. split; [exact Cr|].
  set (items := map (fun i => (nth i gates [], nth i Gs cz)) (seq 0 (length gates))).
  assert (KI : map fst items = gates) by (unfold items; rewrite map_map; cbn [fst]; apply map_nth_seq).
  assert (GI : forall i g, nth_error gates i = Some g -> dget (dict_of items) g = Some (nth i Gs cz)).
  { intros i g Hi. apply dict_of_get; [rewrite KI; exact ND|]. assert (Hl : i < length gates) by (apply nth_error_Some; congruence). apply in_map_iff. exists i. split; [rewrite (nth_error_nth _ _ [] Hi); reflexivity|apply in_seq; lia]. }
  split; [|split].
  - rewrite (csumn_ext 2 _ (fun i => operator_of (fun i0 => nth i0 rho (RtoC 0)) i i)) by (intros i Hi; apply Ar; assumption). apply Forall_cons_iff in T2. destruct T2 as [T2 T3]. apply Forall_cons_iff in T3. destruct T3 as [T3 _]. apply injective_projections; [|exact T3]. change (fst (f1 (F:=C))) with 1%R. apply Rminus_diag_uniq. exact T2.
  - intros g Hg. destruct (In_nth_error _ _ Hg) as (i & Hi). exists (nth i Gs cz). assert (Hl : i < length Gs) by (rewrite Ln; apply nth_error_Some; congruence). split; [exact (GI i g Hi)|].
    pose proof (ex_Gs _ _ _ _ EX) as XG. rewrite Forall_forall in XG, Z1, Z2. assert (HI : In (nth i Gs cz) Gs) by (apply nth_In; exact Hl). destruct (XG _ HI) as (B1 & B2 & B3). destruct (Z1 _ HI) as [B4 B5]. specialize (Z2 _ HI). repeat split; try assumption; apply Z2; assumption.
  - intros fj g fi Ms Hj Hg Hi HMs. rewrite <- Pred by assumption. f_equal. apply born_seq; [exact Ae|exact Ar|].
    assert (IN : forall M a, dget (dict_of items) a = Some M -> In a gates -> GF a = m_at M). { intros M a Ha Hin. destruct (In_nth_error _ _ Hin) as (i & Hi'). rewrite (GI i a Hi') in Ha. injection Ha as <-. apply (HGF i a Hi'). }
    destruct Hs as [_ Ho]. assert (INC : incl (ops fj ++ [g] ++ ops fi) gates). { intros a Ha. apply in_app_iff in Ha. destruct Ha as [Ha|Ha]; [apply (proj2 (Ho fj Hj)), Ha|]. destruct Ha as [<-|Ha]; [exact Hg|apply (proj2 (Ho fi Hi)), Ha]. }
    revert INC HMs. generalize (ops fj ++ [g] ++ ops fi). intros l INC HMs. induction HMs as [|a M l Ms Ha _ IH]; [constructor|]. cbn [map]. constructor; [|apply IH; intros b Hb; apply INC; now right]. rewrite (IN M a Ha) by (apply INC; now left). intros i j _ _. reflexivity.
Qed.
End Fit.
