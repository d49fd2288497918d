(** Decomposition of elements into circuits: the general algorithm. *)
From Coq Require Import QArith Setoid Morphisms.
From Verif Require Import Base DihedralModel DihedralSpec DihedralPolyProofs DihedralValueProofs DihedralGroupProofs DihedralGateProofs.
Open Scope nat_scope.

(** Valid gates other than Y. *)
Lemma plain_cx n i j : i < n -> j < n -> i <> j -> plain_gate n (gcx i j).
Proof.
  intros Hi Hj Hij. split; [|discriminate]. split; [intros q [<-|[<-|[]]]; assumption|]. unfold gate_action. cbn [gname gqubits gcx].
  apply Nat.eqb_neq in Hij. change (eqb (str "cx") (str "x")) with false. change (eqb (str "cx") (str "y")) with false.
  change (eqb (str "cx") (str "z")) with false. change (eqb (str "cx") (str "u1")) with false. change (eqb (str "cx") (str "cx")) with true.
  cbv iota. rewrite Hij. discriminate.
Qed.
Lemma plain_cz n i j : i < n -> j < n -> i <> j -> plain_gate n (gcz i j).
Proof.
  intros Hi Hj Hij. split; [|discriminate]. split; [intros q [<-|[<-|[]]]; assumption|]. unfold gate_action. cbn [gname gqubits gcz].
  apply Nat.eqb_neq in Hij. change (eqb (str "cz") (str "x")) with false. change (eqb (str "cz") (str "y")) with false.
  change (eqb (str "cz") (str "z")) with false. change (eqb (str "cz") (str "u1")) with false. change (eqb (str "cz") (str "cx")) with false.
  change (eqb (str "cz") (str "cz")) with true. cbv iota. rewrite Hij. discriminate.
Qed.
Lemma plain_x n i : i < n -> plain_gate n (gx i).
Proof. intros Hi. split; [|discriminate]. split; [intros q [<-|[]]; assumption | discriminate]. Qed.
Lemma plain_id n i : i < n -> plain_gate n (gid i).
Proof. intros Hi. split; [|discriminate]. split; [intros q [<-|[]]; assumption | discriminate]. Qed.
Lemma plain_u1 n k i : i < n -> plain_gate n (gu1 k i).
Proof. intros Hi. split; [|discriminate]. split; [intros q [<-|[]]; assumption | discriminate]. Qed.

Definition good (n : nat) (e0 : cdi) (a : acc) : Prop :=
  wf_cdi n (fst a) /\ Forall (plain_gate n) (snd a) /\ tracks n e0 (snd a) (fst a) /\ w0 (dpoly (fst a)) = w0 (dpoly e0).
Definition shift_of (a : acc) (i : nat) : bool := nth i (dshift (fst a)) false.

Lemma good_step n e0 a g e' : good n e0 a -> plain_gate n g -> step_gate (fst a) (gname g) (gparams g) (gqubits g) = Ok e' ->
  good n e0 (e', snd a ++ [g]).
Proof.
  intros (W & F & T & Z) P E. destruct (step_gate_spec n (fst a) g W (proj1 P)) as (e1 & E1 & W1 & Z1 & T1). rewrite E in E1. injection E1 as <-.
  split; [exact W1|]. split; [apply Forall_app; split; [exact F | constructor; [exact P | constructor]]|]. split; [|cbn [fst]; congruence].
  apply (tracks_app n e0 (snd a) (fst a) [g] e'); [|exact T | exact T1]. intros h [<-|[]]. apply P.
Qed.

Lemma good_cx n e0 a i j : good n e0 a -> i < n -> j < n -> i <> j -> exists a', do_cx a i j = Ok a' /\ good n e0 a' /\ dpoly (fst a') = dpoly (fst a) /\
  (forall r c, r < n -> c < n -> entry (fst a') r c = if r =? j then xorb (entry (fst a) i c) (entry (fst a) j c) else entry (fst a) r c) /\
  ((forall r, shift_of a r = false) -> forall r, shift_of a' r = false).
Proof.
  intros G Hi Hj Hij. pose proof G as (W & _). unfold do_cx. destruct (cnot_spec n (fst a) i j W Hi Hj Hij) as (e' & E & W' & P & _).
  rewrite E. cbn [bind]. eexists. split; [reflexivity|]. split; [apply good_step; [exact G | apply plain_cx; assumption | exact E]|].
  split; [exact P|]. pose proof (wd_lin n _ W) as Hl. pose proof (wd_shift n _ W) as Hs. unfold cnot in E. rewrite (wd_n n _ W) in E.
  replace (i <? n) with true in E by (symmetry; apply Nat.ltb_lt, Hi). replace (j <? n) with true in E by (symmetry; apply Nat.ltb_lt, Hj).
  cbn [andb] in E. injection E as <-. split.
  - intros r c Hr Hc. unfold entry. cbn [fst dlin]. rewrite set_nth_nth by lia. destruct (Nat.eqb_spec r j) as [->|]; [|reflexivity].
    rewrite (map2_nth xorb _ _ c false false); [reflexivity | rewrite (rows_len n _ W) by exact Hi; exact Hc | rewrite !(rows_len n _ W) by assumption; reflexivity].
  - intros H r. unfold shift_of in *. cbn [fst dshift]. rewrite set_nth_nth by lia. destruct (r =? j); [rewrite !H; reflexivity | apply H].
Qed.

Lemma good_x n e0 a i : good n e0 a -> i < n -> exists a', do_x a i = Ok a' /\ good n e0 a' /\ dpoly (fst a') = dpoly (fst a) /\
  dlin (fst a') = dlin (fst a) /\ forall r, shift_of a' r = if r =? i then negb (shift_of a i) else shift_of a r.
Proof.
  intros G Hi. pose proof G as (W & _). unfold do_x. destruct (flip_spec n (fst a) i W Hi) as (e' & E & W' & P & L & S & _). rewrite E. cbn [bind].
  eexists. split; [reflexivity|]. split; [apply good_step; [exact G | apply plain_x; exact Hi | exact E]|]. split; [exact P|]. split; [exact L | exact S].
Qed.

Lemma good_u1 n e0 a k i : good n e0 a -> i < n -> exists a', do_u1 a k i = Ok a' /\ good n e0 a' /\
  dlin (fst a') = dlin (fst a) /\ dshift (fst a') = dshift (fst a) /\
  (shift_of a i = false -> forall t, In t (terms n) -> eq8 (tm (dpoly (fst a')) t)
     (tm (dpoly (fst a)) t + (if existsb (eqb t) (combs (support n (nth i (dlin (fst a)) [])) (length t)) then pw k (length t) else 0))%Z).
Proof.
  intros G Hi. pose proof G as (W & _). unfold do_u1. destruct (phase_spec n (fst a) k i W Hi) as (e' & E & W' & L & S & T & Z & _). rewrite E. cbn [bind].
  eexists. split; [reflexivity|]. split.
  - apply good_step; [exact G | apply plain_u1; exact Hi|]. cbn [gname gparams gqubits gu1]. change (phase (fst a) (trunc (inject_Z k)) i = Ok e').
    rewrite trunc_int by reflexivity. exact E.
  - split; [exact L|]. split; [exact S | exact T].
Qed.

(** ** Gauss elimination *)
Definition unit_cols (n i : nat) (a : acc) : Prop := forall r c, r < n -> c < i -> entry (fst a) r c = (r =? c).
Definition no_shift (a : acc) : Prop := forall r, shift_of a r = false.

Lemma xsum_unit n i : i < n -> xsum (map (Nat.eqb i) (seq 0 n)) = true.
Proof.
  intros Hi. pose proof (parity_unit n (map (Nat.eqb i) (seq 0 n)) i (fun _ => true) Hi) as H.
  rewrite <- H; [|intros j Hj; rewrite nth_map_seq by exact Hj; reflexivity]. unfold parity. apply xsum_ext. intros j Hj. apply in_seq in Hj.
  rewrite nth_map_seq by lia. rewrite andb_true_r. reflexivity.
Qed.

Lemma pivot_exists n a i : wf_cdi n (fst a) -> no_shift a -> i < n -> unit_cols n i a ->
  exists r, i <= r < n /\ entry (fst a) r i = true.
Proof.
  intros W NS Hi U. destruct (existsb (fun r => entry (fst a) r i) (seq i (n - i))) eqn:E.
  - apply existsb_exists in E as (r & Hr & E). apply in_seq in Hr. exists r. split; [lia | exact E].
  - exfalso. assert (Hz : forall r, i <= r < n -> entry (fst a) r i = false).
    { intros r Hr. destruct (entry (fst a) r i) eqn:Er; [|reflexivity]. exfalso. assert (X : existsb (fun r => entry (fst a) r i) (seq i (n - i)) = true); [|congruence].
      apply existsb_exists. exists r. split; [apply in_seq; lia | exact Er]. }
    set (x := (fun _ => false) : point).
    set (y := (fun k => if k =? i then true else if k <? i then entry (fst a) k i else false) : point).
    assert (Hs : same n (image (fst a) x) (image (fst a) y)).
    { intros r Hr. unfold image. rewrite (wd_n n _ W). f_equal. unfold parity. change (fold_right xorb false) with xsum.
      set (v := entry (fst a) r i).
      transitivity false.
      - rewrite (xsum_ext _ (fun j => false && true)) by (intros j _; unfold x; rewrite andb_false_r; reflexivity).
        rewrite (xsum_map_and (fun _ => true) false). reflexivity.
      - symmetry. rewrite (xsum_ext _ (fun j => xorb (v && Nat.eqb r j) (v && Nat.eqb i j))).
        + rewrite xsum_map_xor, !xsum_map_and, !xsum_unit by assumption. destruct v; reflexivity.
        + intros j Hj. apply in_seq in Hj. change (nth j (nth r (dlin (fst a)) []) false) with (entry (fst a) r j). unfold y.
          destruct (Nat.eqb_spec j i) as [->|Hne].
          * rewrite Nat.eqb_refl. destruct (Nat.eqb_spec r i) as [->|_]; [unfold v; rewrite Hz by lia; reflexivity|]. fold v. destruct v; reflexivity.
          * replace (i =? j) with false by (symmetry; apply Nat.eqb_neq; lia). destruct (Nat.ltb_spec j i) as [Hlt|Hge].
            -- rewrite U by lia. destruct (Nat.eqb_spec r j) as [->|]; [fold v; destruct v; reflexivity | destruct v; reflexivity].
            -- rewrite andb_false_r. destruct (Nat.eqb_spec r j) as [->|]; [unfold v; rewrite Hz by lia; reflexivity | destruct v; reflexivity]. }
    pose proof (wd_inj n _ W x y Hs i Hi) as C. unfold x, y in C. rewrite Nat.eqb_refl in C. discriminate.
Qed.

Lemma clear_column n e0 i : i < n -> forall l a, good n e0 a -> no_shift a -> unit_cols n i a -> entry (fst a) i i = true ->
  (forall j, In j l -> j < n) -> (forall r, r < n -> r <> i -> ~ In r l -> entry (fst a) r i = false) ->
  exists a', foldM (fun a j => if negb (j =? i) && entry (fst a) j i then do_cx a i j else Ok a) l a = Ok a' /\
    good n e0 a' /\ dpoly (fst a') = dpoly (fst a) /\ no_shift a' /\ unit_cols n (S i) a'.
Proof.
  intros Hi. induction l as [|j l IH]; intros a G NS U Hp Hl Hr.
  - exists a. split; [reflexivity|]. split; [exact G|]. split; [reflexivity|]. split; [exact NS|]. intros r c Hlt Hc.
    destruct (Nat.eq_dec c i) as [->|]; [|apply U; lia]. destruct (Nat.eqb_spec r i) as [->|Hne]; [exact Hp|]. apply Hr; auto.
  - cbn [foldM]. assert (Hj : j < n) by (apply Hl; left; reflexivity).
    destruct (Nat.eqb_spec j i) as [->|Hji]; cbn [negb andb].
    + cbn [bind]. apply IH; auto. * intros k Hk. apply Hl. right; exact Hk.
      * intros r Hlt Hne Hno. apply Hr; auto. intros [->|Hin]; contradiction.
    + destruct (entry (fst a) j i) eqn:Ej.
      * destruct (good_cx n e0 a i j G Hi Hj (not_eq_sym Hji)) as (a1 & -> & G1 & P1 & E1 & S1). cbn [bind].
        destruct (IH a1 G1 (S1 NS)) as (a' & E & G' & P' & NS' & U').
        -- intros r c Hlt Hc. rewrite E1 by lia. destruct (Nat.eqb_spec r j) as [->|]; [|apply U; lia]. rewrite !U by lia.
           replace (i =? c) with false by (symmetry; apply Nat.eqb_neq; lia). apply xorb_false_l.
        -- rewrite E1 by lia. replace (i =? j) with false by (symmetry; apply Nat.eqb_neq; lia). exact Hp.
        -- intros k Hk. apply Hl. right; exact Hk.
        -- intros r Hlt Hne Hno. rewrite E1 by lia. destruct (Nat.eqb_spec r j) as [->|Hrj]; [rewrite Hp, Ej; reflexivity|].
           apply Hr; auto. intros [->|Hin]; contradiction.
        -- exists a'. split; [exact E|]. split; [exact G'|]. split; [congruence|]. split; assumption.
      * cbn [bind]. apply IH; auto. -- intros k Hk. apply Hl. right; exact Hk.
        -- intros r Hlt Hne Hno. destruct (Nat.eq_dec r j) as [->|Hrj]; [exact Ej|]. apply Hr; auto. intros [->|Hin]; contradiction.
Qed.

Lemma gauss_column_spec n e0 a i : good n e0 a -> no_shift a -> i < n -> unit_cols n i a ->
  exists a', gauss_column n a i = Ok a' /\ good n e0 a' /\ dpoly (fst a') = dpoly (fst a) /\ no_shift a' /\ unit_cols n (S i) a'.
Proof.
  intros G NS Hi U. unfold gauss_column.
  assert (Pv : exists a1, (if entry (fst a) i i then Ok a
           else match find (fun j => entry (fst a) j i) (seq (i + 1) (n - (i + 1))) with
                | Some j => do a <- do_cx a j i; do a <- do_cx a i j; do_cx a j i
                | None => Ok a
                end) = Ok a1 /\ good n e0 a1 /\ dpoly (fst a1) = dpoly (fst a) /\ no_shift a1 /\ unit_cols n i a1 /\ entry (fst a1) i i = true).
  { destruct (entry (fst a) i i) eqn:Ei; [exists a; auto 7|].
    destruct (pivot_exists n a i (proj1 G) NS Hi U) as (r & Hr & Er).
    assert (r <> i) by (intros ->; congruence).
    destruct (find _ _) as [j|] eqn:F.
    - apply find_some in F as [Hj Ej]. apply in_seq in Hj.
      destruct (good_cx n e0 a j i G) as (a1 & -> & G1 & P1 & E1 & S1); [lia..|]. cbn [bind].
      destruct (good_cx n e0 a1 i j G1) as (a2 & -> & G2 & P2 & E2 & S2); [lia..|]. cbn [bind].
      destruct (good_cx n e0 a2 j i G2) as (a3 & E & G3 & P3 & E3 & S3); [lia..|].
      exists a3. split; [exact E|]. split; [exact G3|]. split; [congruence|]. split; [exact (S3 (S2 (S1 NS)))|].
      assert (X : forall c, c < n -> entry (fst a3) i c = entry (fst a) j c /\ entry (fst a3) j c = entry (fst a) i c /\
                 forall r, r < n -> r <> i -> r <> j -> entry (fst a3) r c = entry (fst a) r c).
      { intros c Hc. assert (Hij : (i =? j) = false) by (apply Nat.eqb_neq; lia). assert (Hji : (j =? i) = false) by (apply Nat.eqb_neq; lia).
        rewrite !E3, !E2, !E1 by lia. rewrite ?Nat.eqb_refl, ?Hij, ?Hji.
        split; [|split].
        - destruct (entry (fst a) i c), (entry (fst a) j c); reflexivity.
        - destruct (entry (fst a) i c), (entry (fst a) j c); reflexivity.
        - intros r' Hr' H1 H2. apply Nat.eqb_neq in H1, H2. rewrite E3, H1, E2, H2, E1, H1 by lia. reflexivity. }
      split.
      + intros r' c Hr' Hc. destruct (X c) as (Xi & Xj & Xo); [lia|]. destruct (Nat.eq_dec r' i) as [->|]; [rewrite Xi, U by lia|].
        { replace (j =? c) with false by (symmetry; apply Nat.eqb_neq; lia). symmetry. apply Nat.eqb_neq. lia. }
        destruct (Nat.eq_dec r' j) as [->|]; [rewrite Xj, U by lia|rewrite Xo by assumption; apply U; assumption].
        replace (i =? c) with false by (symmetry; apply Nat.eqb_neq; lia). symmetry. apply Nat.eqb_neq. lia.
      + destruct (X i Hi) as (Xi & _). rewrite Xi. exact Ej.
    - exfalso. pose proof (find_none _ _ F r) as H'. cbn beta in H'. rewrite H' in Er; [discriminate | apply in_seq; lia]. }
  destruct Pv as (a1 & -> & G1 & P1 & NS1 & U1 & E1). cbn [bind].
  destruct (clear_column n e0 i Hi (seq 0 n) a1 G1 NS1 U1 E1) as (a' & E & G' & P' & NS' & U').
  - intros j Hj. apply in_seq in Hj. lia.
  - intros r Hr _ Hno. exfalso. apply Hno, in_seq. lia.
  - exists a'. split; [exact E|]. split; [exact G'|]. split; [congruence|]. split; assumption.
Qed.

Lemma gauss_all n e0 : forall m i a, i + m = n -> good n e0 a -> no_shift a -> unit_cols n i a ->
  exists a', foldM (gauss_column n) (seq i m) a = Ok a' /\ good n e0 a' /\ dpoly (fst a') = dpoly (fst a) /\ no_shift a' /\ unit_cols n n a'.
Proof.
  induction m as [|m IH]; intros i a Him G NS U.
  - exists a. replace i with n in * by lia. auto 6.
  - cbn [seq foldM]. destruct (gauss_column_spec n e0 a i G NS) as (a1 & -> & G1 & P1 & NS1 & U1); [lia | exact U|]. cbn [bind].
    destruct (IH (S i) a1) as (a' & E & G' & P' & NS' & U'); [lia | assumption..|]. exists a'. split; [exact E|]. split; [exact G'|]. split; [congruence|]. split; assumption.
Qed.

Lemma clear_shift n e0 (sh : nat -> bool) : forall l a, good n e0 a -> NoDup l -> (forall j, In j l -> j < n) ->
  (forall r, shift_of a r = if existsb (Nat.eqb r) l then sh r else false) ->
  exists a', foldM (fun a i => if sh i then do_x a i else Ok a) l a = Ok a' /\ good n e0 a' /\ dpoly (fst a') = dpoly (fst a) /\ no_shift a'.
Proof.
  induction l as [|j l IH]; intros a G ND Hl H.
  - exists a. split; [reflexivity|]. split; [exact G|]. split; [reflexivity|]. intros r. apply H.
  - inversion ND as [|? ? Hn ND']; subst. cbn [foldM].
    assert (Hno : existsb (Nat.eqb j) l = false).
    { apply not_true_iff_false. intros X. apply existsb_exists in X as (k & Hk & E). apply Nat.eqb_eq in E. subst. contradiction. }
    destruct (sh j) eqn:Ej.
    + destruct (good_x n e0 a j G) as (a1 & -> & G1 & P1 & _ & S1); [apply Hl; left; reflexivity|]. cbn [bind].
      destruct (IH a1 G1 ND') as (a' & E & G' & P' & NS').
      * intros k Hk. apply Hl. right; exact Hk.
      * intros r. rewrite S1. rewrite !H. cbn [existsb]. rewrite Nat.eqb_refl. cbn [orb]. destruct (Nat.eqb_spec r j) as [->|_]; [rewrite Ej, Hno; reflexivity | reflexivity].
      * exists a'. split; [exact E|]. split; [exact G'|]. split; [congruence | exact NS'].
    + cbn [bind]. apply IH; [exact G | exact ND' | intros k Hk; apply Hl; right; exact Hk|].
      intros r. rewrite H. cbn [existsb]. destruct (Nat.eqb_spec r j) as [->|_]; [rewrite Ej, Hno; reflexivity | reflexivity].
Qed.

Lemma eye_eq n m : length m = n -> Forall (fun r => length r = n) m -> (forall r c, r < n -> c < n -> nth c (nth r m []) false = (r =? c)) -> m = eye n.
Proof.
  intros Hl Hr H. apply (nth_ext _ _ [] []); [unfold eye; rewrite map_length, seq_length; exact Hl|]. intros r Hlt. rewrite Hl in Hlt.
  assert (Lr : length (nth r m []) = n) by (rewrite Forall_forall in Hr; apply Hr, nth_In; lia).
  assert (Le : length (nth r (eye n) []) = n) by (unfold eye; rewrite nth_map_seq by exact Hlt; rewrite map_length, seq_length; reflexivity).
  apply (nth_ext _ _ false false); [congruence|]. intros c Hc. rewrite Lr in Hc. rewrite H, eye_nth by assumption. reflexivity.
Qed.
Lemma noshift_eq n s : length s = n -> (forall r, nth r s false = false) -> s = repeat false n.
Proof.
  revert n. induction s as [|b s IH]; intros [|n] Hl H; try discriminate; [reflexivity|]. cbn. f_equal; [apply (H 0)|]. apply IH; [cbn in Hl; lia|]. intros r. apply (H (S r)).
Qed.

Lemma reduce_affine_spec n e : wf_cdi n e -> exists a, reduce_affine e = Ok a /\ good n e a /\ dpoly (fst a) = dpoly e /\
  dlin (fst a) = eye n /\ dshift (fst a) = repeat false n.
Proof.
  intros W. unfold reduce_affine. rewrite (wd_n n e W).
  assert (G0 : good n e (e, [])) by (split; [exact W|]; split; [constructor|]; split; [apply tracks_nil | reflexivity]).
  destruct (clear_shift n e (fun i => nth i (dshift e) false) (seq 0 n) (e, []) G0) as (a1 & -> & G1 & P1 & NS1).
  { apply seq_NoDup. } { intros j Hj. apply in_seq in Hj. lia. }
  { intros r. unfold shift_of. cbn [fst]. destruct (existsb (Nat.eqb r) (seq 0 n)) eqn:E; [reflexivity|]. apply nth_overflow. rewrite (wd_shift n e W).
    destruct (Nat.le_gt_cases n r) as [|Hlt]; [assumption|]. exfalso. assert (X : existsb (Nat.eqb r) (seq 0 n) = true); [|congruence].
    apply existsb_exists. exists r. split; [apply in_seq; lia | apply Nat.eqb_refl]. }
  cbn [bind]. destruct (gauss_all n e n 0 a1 eq_refl G1 NS1) as (a & E & G & P & NS & U); [intros r c _ Hc; lia|].
  exists a. split; [exact E|]. split; [exact G|]. split; [rewrite P, P1; reflexivity|]. destruct G as (Wa & _). split.
  - apply eye_eq; [apply (wd_lin n _ Wa) | apply (wd_rows n _ Wa) | exact U].
  - apply noshift_eq; [apply (wd_shift n _ Wa) | exact NS].
Qed.

(** ** Building a phase polynomial *)
Definition diag (n : nat) (e0 : cdi) (a : acc) : Prop :=
  good n e0 a /\ dlin (fst a) = eye n /\ no_shift a.

Lemma diag_entry n e0 a r c : diag n e0 a -> r < n -> c < n -> entry (fst a) r c = (r =? c).
Proof. intros (_ & L & _) Hr Hc. unfold entry. rewrite L. apply eye_nth; assumption. Qed.
Lemma diag_intro n e0 a : good n e0 a -> no_shift a -> (forall r c, r < n -> c < n -> entry (fst a) r c = (r =? c)) -> diag n e0 a.
Proof. intros G NS H. split; [exact G|]. split; [|exact NS]. destruct G as (W & _). apply eye_eq; [apply (wd_lin n _ W) | apply (wd_rows n _ W) | exact H]. Qed.

Lemma support_eq n row S : increasing S = true -> (forall j, In j S -> j < n) -> (forall c, c < n -> nth c row false = existsb (Nat.eqb c) S) -> support n row = S.
Proof.
  intros Hi Hl H. apply increasing_ext; [apply support_increasing | exact Hi|]. intros j. unfold support. rewrite filter_In, in_seq. split.
  - intros [Hj E]. rewrite H in E by lia. apply existsb_exists in E as (k & Hk & Ek). apply Nat.eqb_eq in Ek. subst. exact Hk.
  - intros Hj. specialize (Hl j Hj). split; [lia|]. rewrite H by exact Hl. apply existsb_exists. exists j. split; [exact Hj | apply Nat.eqb_refl].
Qed.

Lemma inc2 i j : i < j -> increasing [i; j] = true.
Proof. intros H. apply increasing_cons. split; [intros q [<-|[]]; exact H | reflexivity]. Qed.
Lemma inc3 i j k : i < j -> j < k -> increasing [i; j; k] = true.
Proof. intros H H'. apply increasing_cons. split; [intros q [<-|[<-|[]]]; lia | apply inc2, H']. Qed.

(** The three compound operations. *)
Definition added (n : nat) (S : list nat) (k : Z) (a a' : acc) : Prop :=
  forall t, In t (terms n) -> eq8 (tm (dpoly (fst a')) t) (tm (dpoly (fst a)) t + (if existsb (eqb t) (combs S (length t)) then pw k (length t) else 0))%Z.

Lemma op1 n e0 a i k : diag n e0 a -> i < n -> exists a', do_u1 a k i = Ok a' /\ diag n e0 a' /\ added n [i] k a a'.
Proof.
  intros D Hi. pose proof D as (G & L & NS). destruct (good_u1 n e0 a k i G Hi) as (a' & E & G' & L' & S' & T'). exists a'. split; [exact E|]. split.
  - split; [exact G'|]. split; [congruence|]. intros r. unfold shift_of. rewrite S'. apply NS.
  - specialize (T' (NS i)). rewrite L, (support_eq n _ [i]) in T'; [exact T' | reflexivity | intros j [<-|[]]; exact Hi|].
    intros c Hc. rewrite eye_nth by assumption. cbn [existsb]. rewrite orb_false_r, Nat.eqb_sym. reflexivity.
Qed.

Lemma op2 n e0 a i j k : diag n e0 a -> i < j -> j < n -> exists a',
  (do a <- do_cx a i j; do a <- do_u1 a k j; do_cx a i j) = Ok a' /\ diag n e0 a' /\ added n [i; j] k a a'.
Proof.
  intros D Hij Hj. pose proof D as (G & L & NS).
  destruct (good_cx n e0 a i j G) as (a1 & -> & G1 & P1 & E1 & S1); [lia..|]. cbn [bind].
  destruct (good_u1 n e0 a1 k j G1 Hj) as (a2 & -> & G2 & L2 & Sh2 & T2). cbn [bind].
  destruct (good_cx n e0 a2 i j G2) as (a3 & E & G3 & P3 & E3 & S3); [lia..|].
  exists a3. split; [exact E|].
  assert (Ent : forall r c, r < n -> c < n -> entry (fst a2) r c = if r =? j then xorb (i =? c) (j =? c) else r =? c).
  { intros r c Hr Hc. unfold entry. rewrite L2. change (nth c (nth r (dlin (fst a1)) []) false) with (entry (fst a1) r c). rewrite E1 by assumption.
    rewrite !(diag_entry n e0 a) by (assumption || lia). reflexivity. }
  split.
  - apply diag_intro; [exact G3 | refine (S3 _); intros r; unfold shift_of; rewrite Sh2; exact (S1 NS r)|]. intros r c Hr Hc. rewrite E3, !Ent by lia.
    replace (i =? j) with false by (symmetry; apply Nat.eqb_neq; lia). rewrite Nat.eqb_refl. destruct (Nat.eqb_spec r j) as [->|]; [|reflexivity].
    destruct (i =? c), (j =? c); reflexivity.
  - intros t Ht. rewrite P3, (T2 (S1 NS j) t Ht), P1. rewrite (support_eq n _ [i; j]); [reflexivity | apply inc2, Hij| intros q [<-|[<-|[]]]; lia|].
    intros c Hc. change (entry (fst a1) j c = existsb (Nat.eqb c) [i; j]). rewrite E1, Nat.eqb_refl, !(diag_entry n e0 a) by (assumption || lia).
    cbn [existsb]. rewrite orb_false_r, (Nat.eqb_sym c i), (Nat.eqb_sym c j). destruct (Nat.eqb_spec i c), (Nat.eqb_spec j c); try reflexivity. lia.
Qed.

Lemma op3 n e0 a i j k v : diag n e0 a -> i < j -> j < k -> k < n -> exists a',
  (do a <- do_cx a i k; do a <- do_cx a j k; do a <- do_u1 a v k; do a <- do_cx a i k; do_cx a j k) = Ok a' /\ diag n e0 a' /\ added n [i; j; k] v a a'.
Proof.
  intros D Hij Hjk Hk. pose proof D as (G & L & NS).
  destruct (good_cx n e0 a i k G) as (a1 & -> & G1 & P1 & E1 & S1); [lia..|]. cbn [bind].
  destruct (good_cx n e0 a1 j k G1) as (a2 & -> & G2 & P2 & E2 & S2); [lia..|]. cbn [bind].
  destruct (good_u1 n e0 a2 v k G2 Hk) as (a3 & -> & G3 & L3 & Sh3 & T3). cbn [bind].
  destruct (good_cx n e0 a3 i k G3) as (a4 & -> & G4 & P4 & E4 & S4); [lia..|]. cbn [bind].
  destruct (good_cx n e0 a4 j k G4) as (a5 & E & G5 & P5 & E5 & S5); [lia..|].
  exists a5. split; [exact E|].
  assert (Hik' : (i =? k) = false) by (apply Nat.eqb_neq; lia). assert (Hjk' : (j =? k) = false) by (apply Nat.eqb_neq; lia).
  assert (Ent2 : forall r c, r < n -> c < n -> entry (fst a2) r c = if r =? k then xorb (j =? c) (xorb (i =? c) (k =? c)) else r =? c).
  { intros r c Hr Hc. rewrite E2, !E1 by lia. rewrite Hjk', Nat.eqb_refl, !(diag_entry n e0 a) by (assumption || lia). destruct (r =? k); reflexivity. }
  assert (Ent : forall r c, r < n -> c < n -> entry (fst a3) r c = if r =? k then xorb (j =? c) (xorb (i =? c) (k =? c)) else r =? c).
  { intros r c Hr Hc. unfold entry. rewrite L3. apply Ent2; assumption. }
  assert (NS3 : no_shift a3) by (intros r; unfold shift_of; rewrite Sh3; exact (S2 (S1 NS) r)).
  split.
  - apply diag_intro; [exact G5 | exact (S5 (S4 NS3))|]. intros r c Hr Hc. rewrite E5, !E4, !Ent by lia.
    rewrite Hik', Hjk', Nat.eqb_refl. destruct (Nat.eqb_spec r k) as [->|]; [|reflexivity].
    destruct (i =? c), (j =? c), (k =? c); reflexivity.
  - intros t Ht. rewrite P5, P4, (T3 (S2 (S1 NS) k) t Ht), P2, P1. rewrite (support_eq n _ [i; j; k]);
      [reflexivity | apply inc3; assumption| intros q [<-|[<-|[<-|[]]]]; lia|].
    intros c Hc. change (entry (fst a2) k c = existsb (Nat.eqb c) [i; j; k]). rewrite Ent2, Nat.eqb_refl by lia.
    cbn [existsb]. rewrite orb_false_r, (Nat.eqb_sym c i), (Nat.eqb_sym c j), (Nat.eqb_sym c k).
    destruct (Nat.eqb_spec i c), (Nat.eqb_spec j c), (Nat.eqb_spec k c); try reflexivity; lia.
Qed.

Lemma existsb_self (t : list nat) : existsb (eqb t) (combs t (length t)) = true.
Proof.
  apply existsb_exists. exists t. split; [|apply eqb_refl]. induction t as [|a t IH]; [left; reflexivity|]. cbn [length]. rewrite combs_cons, in_app_iff. left. apply in_map, IH.
Qed.
Lemma existsb_combs_neq (S t : list nat) : length t = length S -> t <> S -> existsb (eqb t) (combs S (length t)) = false.
Proof.
  intros Hl Hne. apply not_true_iff_false. intros H. apply existsb_exists in H as (u & Hu & E). destruct (eqb_spec t u) as [<-|]; [|discriminate]. apply Hne. clear Hne E.
  rewrite Hl in Hu. clear Hl. revert t Hu. induction S as [|a S IH]; intros t Hu; [destruct Hu as [<-|[]]; reflexivity|]. cbn [length] in Hu. rewrite combs_cons, in_app_iff in Hu.
  destruct Hu as [Hu|Hu]; [apply in_map_iff in Hu as (v & <- & Hv); rewrite (IH v Hv); reflexivity|]. exfalso.
  assert (Hlt : forall (l : list nat) m, length l < m -> combs l m = []).
  { induction l as [|b l IHl]; intros [|m] Hm; cbn in Hm; try lia; [reflexivity|]. rewrite combs_cons, IHl, IHl by lia. reflexivity. }
  rewrite Hlt in Hu by lia. destruct Hu.
Qed.
Lemma existsb_combs_long (S : list nat) t : length S < length t -> existsb (eqb t) (combs S (length t)) = false.
Proof.
  intros H. assert (Hlt : forall (l : list nat) m, length l < m -> combs l m = []).
  { induction l as [|b l IHl]; intros [|m] Hm; cbn in Hm; try lia; [reflexivity|]. rewrite combs_cons, IHl, IHl by lia. reflexivity. }
  rewrite Hlt by exact H. reflexivity.
Qed.

(** Coefficients of degree at least [d], except those of degree [d] still to be done. *)
Definition done (n : nat) (target : poly) (d : nat) (rest : list (list nat)) (a : acc) : Prop :=
  forall t, In t (terms n) -> d < length t \/ (length t = d /\ ~ In t rest) -> tm (dpoly (fst a)) t = tm target t.

Lemma tm_reduced n p t : wf_poly n p -> In t (terms n) -> reduced (tm p t).
Proof. intros W H. apply (get_term_tm n p t W H). Qed.

Lemma stage3 n e0 target : wf_poly n target -> special target -> forall l a, diag n e0 a -> NoDup l -> (forall t, In t l -> In t (triples n)) ->
  (forall t, In t l -> tm (dpoly (fst a)) t = 0%Z) -> done n target 3 l a ->
  exists a', foldM (build3 target) l a = Ok a' /\ diag n e0 a' /\ done n target 3 [] a'.
Proof.
  intros Wt St. pose proof (proj1 (special_tm n target Wt) St) as [_ S3].
  induction l as [|t l IH]; intros a D ND Hl H0 Hd; [exists a; split; [reflexivity|]; split; assumption|].
  inversion ND as [|? ? Hn ND']; subst. assert (Htr : In t (triples n)) by (apply Hl; left; reflexivity).
  assert (Ht : In t (terms n)) by (apply triples_terms, Htr).
  assert (Hlen : length t = 3) by (rewrite triples_combs in Htr; apply (combs_sub _ _ _ Htr)).
  destruct t as [|i [|j [|k [|]]]]; try discriminate. pose proof Ht as Ht'. apply terms_In in Ht' as (_ & Hinc & Hlt).
  apply increasing_cons in Hinc as [H1 Hinc]. apply increasing_cons in Hinc as [H2 _].
  cbn [foldM]. unfold build3 at 1. rewrite (proj1 (get_term_tm n target _ Wt Ht)). cbn [bind].
  destruct (Z.eqb_spec (tm target [i; j; k]) 0) as [Ez|Hnz].
  - cbn [bind]. apply IH; [exact D | exact ND' | intros u Hu; apply Hl; right; exact Hu | intros u Hu; apply H0; right; exact Hu|].
    intros u Hu [Hlu|[Hlu Hno]]; [apply Hd; auto|]. destruct (eqb_spec [i; j; k] u) as [<-|Hne]; [rewrite Ez; apply H0; left; reflexivity|].
    apply Hd; [exact Hu|]. right. split; [exact Hlu|]. intros [E|Hin]; contradiction.
  - destruct (op3 n e0 a i j k 1 D) as (a1 & -> & D1 & A1); [apply H1; cbn; auto | apply H2; cbn; auto | apply Hlt; cbn; auto|]. cbn [bind].
    assert (Same : forall u, In u (triples n) -> u <> [i; j; k] -> tm (dpoly (fst a1)) u = tm (dpoly (fst a)) u).
    { intros u Hu Hne. assert (length u = 3) by (rewrite triples_combs in Hu; apply (combs_sub _ _ _ Hu)). apply triples_terms in Hu.
      apply eq8_reduced; [apply (tm_reduced n), Hu; apply (wd_poly n _ (proj1 (proj1 D1))) | apply (tm_reduced n), Hu; apply (wd_poly n _ (proj1 (proj1 D)))|].
      rewrite (A1 u Hu), existsb_combs_neq by assumption. rewrite Z.add_0_r. reflexivity. }
    apply IH; [exact D1 | exact ND' | intros u Hu; apply Hl; right; exact Hu | |].
    + intros u Hu. rewrite Same; [apply H0; right; exact Hu | apply Hl; right; exact Hu | intros ->; contradiction].
    + intros u Hu [Hlu|[Hlu Hno]]; [apply terms_In in Hu; lia|].
      destruct (eqb_spec [i; j; k] u) as [<-|Hne].
      * apply eq8_reduced; [apply (tm_reduced n), Hu; apply (wd_poly n _ (proj1 (proj1 D1))) | apply (tm_reduced n), Hu; exact Wt|].
        rewrite (A1 _ Hu), existsb_self, H0 by (left; reflexivity). cbn [length pw].
        specialize (S3 _ Htr). pose proof (tm_reduced n target _ Wt Hu) as R. unfold reduced in R.
        assert (tm target [i; j; k] = 4)%Z as -> by lia. reflexivity.
      * rewrite Same; [|rewrite triples_combs; destruct (terms_cases n u Hu) as [->|[(? & -> & _)|[(? & ? & -> & _)|(? & ? & ? & -> & Hp)]]]; try discriminate Hlu; rewrite <- triples_combs; exact Hp | auto].
        apply Hd; [exact Hu|]. right. split; [exact Hlu|]. intros [E|Hin]; contradiction.
Qed.

Lemma stage2 n e0 target : wf_poly n target -> special target -> forall l a, diag n e0 a -> NoDup l -> (forall t, In t l -> In t (pairs n)) ->
  done n target 2 l a -> exists a', foldM (build2 target) l a = Ok a' /\ diag n e0 a' /\ done n target 2 [] a'.
Proof.
  intros Wt St. pose proof (proj1 (special_tm n target Wt) St) as [S2 _].
  induction l as [|t l IH]; intros a D ND Hl Hd; [exists a; split; [reflexivity|]; split; assumption|].
  inversion ND as [|? ? Hn ND']; subst. assert (Htr : In t (pairs n)) by (apply Hl; left; reflexivity).
  assert (Ht : In t (terms n)) by (apply pairs_terms, Htr).
  assert (Hlen : length t = 2) by (rewrite pairs_combs in Htr; apply (combs_sub _ _ _ Htr)).
  destruct t as [|i [|j [|]]]; try discriminate. pose proof Ht as Ht'. apply terms_In in Ht' as (_ & Hinc & Hlt).
  apply increasing_cons in Hinc as [H1 _].
  pose proof (proj1 (proj1 D)) as Wa. pose proof (wd_poly n _ Wa) as Wp.
  pose proof (proj1 (special_tm n _ Wp) (wd_special n _ Wa)) as [Sa _].
  cbn [foldM]. unfold build2 at 1. rewrite (proj1 (get_term_tm n target _ Wt Ht)), (proj1 (get_term_tm n _ _ Wp Ht)). cbn [bind].
  set (v1 := tm target [i; j]) in *. set (v2 := tm (dpoly (fst a)) [i; j]) in *.
  assert (R1 : reduced v1) by (apply (tm_reduced n); assumption). assert (R2 : reduced v2) by (apply (tm_reduced n); assumption).
  assert (E1 : (v1 mod 2 = 0)%Z) by (apply S2, Htr). assert (E2 : (v2 mod 2 = 0)%Z) by (apply Sa, Htr).
  destruct (Z.eqb_spec (((v2 - v1) / 2) mod 4) 0) as [Ez|Hnz].
  - cbn [bind]. assert (Ev : v2 = v1) by (unfold reduced in *; lia).
    apply IH; [exact D | exact ND' | intros u Hu; apply Hl; right; exact Hu |].
    intros u Hu [Hlu|[Hlu Hno]]; [apply Hd; auto|]. destruct (eqb_spec [i; j] u) as [<-|Hne]; [exact Ev|].
    apply Hd; [exact Hu|]. right. split; [exact Hlu|]. intros [E|Hin]; contradiction.
  - destruct (op2 n e0 a i j (((v2 - v1) / 2) mod 4)%Z D) as (a1 & -> & D1 & A1); [apply H1; cbn; auto | apply Hlt; cbn; auto|]. cbn [bind].
    pose proof (wd_poly n _ (proj1 (proj1 D1))) as Wp1.
    apply IH; [exact D1 | exact ND' | intros u Hu; apply Hl; right; exact Hu |].
    intros u Hu Hc. apply eq8_reduced; [apply (tm_reduced n), Hu; exact Wp1 | apply (tm_reduced n), Hu; exact Wt|]. rewrite (A1 u Hu).
    destruct Hc as [Hlu|[Hlu Hno]].
    + rewrite existsb_combs_long by exact Hlu. rewrite Z.add_0_r, Hd by auto. reflexivity.
    + destruct (eqb_spec [i; j] u) as [<-|Hne].
      * rewrite existsb_self. cbn [length pw]. fold v1 v2. unfold eq8. unfold reduced in *. lia.
      * rewrite existsb_combs_neq by (cbn [length]; congruence || auto). rewrite Z.add_0_r, Hd; [reflexivity | exact Hu|].
        right. split; [exact Hlu|]. intros [E|Hin]; contradiction.
Qed.

Lemma stage1 n e0 target : wf_poly n target -> forall l a, diag n e0 a -> NoDup l -> (forall i, In i l -> i < n) ->
  done n target 1 (map (fun i => [i]) l) a -> exists a', foldM (build1 target) l a = Ok a' /\ diag n e0 a' /\ done n target 1 [] a'.
Proof.
  intros Wt. induction l as [|i l IH]; intros a D ND Hl Hd; [exists a; split; [reflexivity|]; split; assumption|].
  inversion ND as [|? ? Hn ND']; subst. assert (Hi : i < n) by (apply Hl; left; reflexivity).
  assert (Ht : In [i] (terms n)) by (apply terms_In; cbn; split; [lia|]; split; [reflexivity|]; intros j [<-|[]]; exact Hi).
  pose proof (wd_poly n _ (proj1 (proj1 D))) as Wp.
  cbn [foldM]. unfold build1 at 1. rewrite (proj1 (get_term_tm n target _ Wt Ht)), (proj1 (get_term_tm n _ _ Wp Ht)). cbn [bind].
  pose proof (tm_reduced n target _ Wt Ht) as R1. pose proof (tm_reduced n _ _ Wp Ht) as R2. unfold reduced in R1, R2.
  destruct (Z.eqb_spec ((tm target [i] - tm (dpoly (fst a)) [i]) mod 8) 0) as [Ez|Hnz].
  - cbn [bind]. apply IH; [exact D | exact ND' | intros u Hu; apply Hl; right; exact Hu |].
    intros u Hu [Hlu|[Hlu Hno]]; [apply Hd; auto|]. destruct (eqb_spec [i] u) as [<-|Hne]; [lia|].
    apply Hd; [exact Hu|]. right. split; [exact Hlu|]. intros [E|Hin]; contradiction.
  - destruct (op1 n e0 a i ((tm target [i] - tm (dpoly (fst a)) [i]) mod 8)%Z D Hi) as (a1 & -> & D1 & A1). cbn [bind].
    pose proof (wd_poly n _ (proj1 (proj1 D1))) as Wp1.
    apply IH; [exact D1 | exact ND' | intros u Hu; apply Hl; right; exact Hu |].
    intros u Hu Hc. apply eq8_reduced; [apply (tm_reduced n), Hu; exact Wp1 | apply (tm_reduced n), Hu; exact Wt|]. rewrite (A1 u Hu).
    destruct Hc as [Hlu|[Hlu Hno]].
    + rewrite existsb_combs_long by exact Hlu. rewrite Z.add_0_r, Hd by auto. reflexivity.
    + destruct (eqb_spec [i] u) as [<-|Hne].
      * rewrite existsb_self. cbn [length pw]. unfold eq8. lia.
      * rewrite existsb_combs_neq by (cbn [length]; congruence || auto). rewrite Z.add_0_r, Hd; [reflexivity | exact Hu|].
        right. split; [exact Hlu|]. intros [E|Hin]; contradiction.
Qed.

Lemma build_poly_spec n target : 1 <= n -> wf_poly n target -> special target -> w0 target = 0%Z ->
  exists e0 a, cdi_id n = Ok e0 /\ build_poly n target = Ok a /\ diag n e0 a /\ dpoly (fst a) = target.
Proof.
  intros Hn Wt St Z0. unfold build_poly. destruct (id_spec n Hn) as (e0 & E0 & W0 & P0 & L0 & S0 & _). exists e0. rewrite E0. cbn [bind].
  assert (D0 : diag n e0 (e0, [])).
  { split; [split; [exact W0|]; split; [constructor|]; split; [apply tracks_nil | reflexivity]|]. split; [exact L0|]. intros r. unfold shift_of. cbn [fst]. rewrite S0.
    generalize n. intros m. revert r. induction m; intros [|r]; cbn; auto. }
  destruct (stage3 n e0 target Wt St (combs (seq 0 n) 3) (e0, []) D0) as (a3 & -> & D3 & H3).
  { apply combs_NoDup, seq_NoDup. } { intros t Ht. rewrite triples_combs. exact Ht. }
  { intros t Ht. cbn [fst]. rewrite P0. apply zeros_tm, triples_terms. rewrite triples_combs. exact Ht. }
  { intros t Ht [Hl|[Hl Hno]]; [apply terms_In in Ht; lia|]. exfalso. apply Hno.
    destruct (terms_cases n t Ht) as [->|[(? & -> & _)|[(? & ? & -> & _)|(? & ? & ? & -> & Hp)]]]; try discriminate Hl. rewrite <- triples_combs. exact Hp. }
  cbn [bind].
  destruct (stage2 n e0 target Wt St (combs (seq 0 n) 2) a3 D3) as (a2 & -> & D2 & H2).
  { apply combs_NoDup, seq_NoDup. } { intros t Ht. rewrite pairs_combs. exact Ht. }
  { intros t Ht [Hl|[Hl Hno]].
    - apply H3; [exact Ht|]. pose proof Ht as Ht'. apply terms_In in Ht' as (Hl' & _). right. split; [lia | intros []].
    - exfalso. apply Hno. destruct (terms_cases n t Ht) as [->|[(? & -> & _)|[(? & ? & -> & Hp)|(? & ? & ? & -> & _)]]]; try discriminate Hl. rewrite <- pairs_combs. exact Hp. }
  cbn [bind].
  destruct (stage1 n e0 target Wt (seq 0 n) a2 D2) as (a1 & E1 & D1 & H1).
  { apply seq_NoDup. } { intros i Hi. apply in_seq in Hi. lia. }
  { intros t Ht [Hl|[Hl Hno]].
    - apply H2; [exact Ht|]. destruct (Nat.eq_dec (length t) 2); [right; split; [assumption | intros []] | left; lia].
    - exfalso. apply Hno. destruct (terms_cases n t Ht) as [->|[(i & -> & Hi)|[(? & ? & -> & Hp)|(? & ? & ? & -> & _)]]]; try discriminate Hl.
      apply (in_map (fun i => [i])), in_seq. lia. }
  exists a1. split; [reflexivity|]. split; [exact E1|]. split; [exact D1|]. destruct D1 as ((W1 & _ & _ & Zw) & _).
  apply (poly_ext n); [apply (wd_poly n _ W1) | exact Wt|]. intros t Ht. destruct (length t) as [|m] eqn:El.
  - destruct t; [|discriminate]. rewrite !tm_0, Zw, P0, Z0. reflexivity.
  - apply H1; [exact Ht|]. destruct m; [right; split; [exact El | intros []] | left; lia].
Qed.

(** ** Inverting circuits *)
Lemma ginv_qubits g : gqubits (ginv g) = gqubits g.
Proof. unfold ginv. destruct (eqb (gname g) (str "u1")); reflexivity. Qed.
Lemma ginv_name g : gname (ginv g) = gname g.
Proof. unfold ginv. destruct (eqb (gname g) (str "u1")); reflexivity. Qed.

Lemma gate_inv g x k y : gate_action g x = Some (k, y) -> exists k' x', gate_action (ginv g) y = Some (k', x') /\ eq8 k' (- k) /\ forall i, x' i = x i.
Proof.
  unfold gate_action. rewrite ginv_name, ginv_qubits.
  assert (U : forall q b i, upd (upd x q b) q (x q) i = x i).
  { intros q b i. unfold upd. destruct (Nat.eqb_spec i q) as [->|]; reflexivity. }
  destruct (eqb (gname g) (str "x")) eqn:Ex.
  { destruct (gqubits g) as [|q [|]]; try discriminate. intros H. injection H as <- <-. eexists _, _. split; [reflexivity|]. split; [reflexivity|].
    intros i. rewrite upd_same, negb_involutive. apply U. }
  destruct (eqb (gname g) (str "y")) eqn:Ey.
  { destruct (gqubits g) as [|q [|]]; try discriminate. intros H. injection H as <- <-. eexists _, _. split; [reflexivity|]. rewrite upd_same. split.
    - destruct (x q); reflexivity.
    - intros i. rewrite negb_involutive. apply U. }
  destruct (eqb (gname g) (str "z")) eqn:Ez.
  { destruct (gqubits g) as [|q [|]]; try discriminate. intros H. injection H as <- <-. eexists _, _. split; [reflexivity|]. split; [|reflexivity].
    destruct (x q); reflexivity. }
  destruct (eqb (gname g) (str "u1")) eqn:Eu.
  { destruct (gqubits g) as [|q [|]]; try discriminate. unfold ginv. rewrite Eu. cbn [gparams]. destruct (gparams g) as [|a [|]]; try discriminate. cbn [map Qopp Qden Qnum].
    destruct (Z.pos (Qden a) =? 1)%Z; [|discriminate]. intros H. injection H as <- <-. eexists _, _. split; [reflexivity|]. split; [|reflexivity].
    apply eq8_k with 0%Z. ring. }
  destruct (eqb (gname g) (str "cx")) eqn:Ec.
  { destruct (gqubits g) as [|a [|b [|]]]; try discriminate. destruct (Nat.eqb_spec a b) as [|Hab]; [discriminate|]. intros H. injection H as <- <-.
    eexists _, _. split; [reflexivity|]. split; [reflexivity|]. intros i. rewrite upd_same, (upd_other _ _ _ a Hab).
    replace (xorb (x a) (xorb (x a) (x b))) with (x b) by (destruct (x a), (x b); reflexivity). apply U. }
  destruct (eqb (gname g) (str "cz")) eqn:Ecz.
  { destruct (gqubits g) as [|a [|b [|]]]; try discriminate. destruct (Nat.eqb_spec a b) as [|Hab]; [discriminate|]. intros H. injection H as <- <-.
    eexists _, _. split; [reflexivity|]. split; [|reflexivity]. destruct (x a), (x b); reflexivity. }
  destruct (eqb (gname g) (str "id")); [|discriminate]. intros H. injection H as <- <-. eexists _, _. split; [reflexivity|]. split; reflexivity.
Qed.

Lemma valid_defined n g x : valid_gate n g -> exists k y, gate_action g x = Some (k, y).
Proof.
  intros [_ H]. unfold gate_action in *.
  repeat match goal with
  | |- context [if eqb ?a ?b then _ else _] => destruct (eqb a b)
  end; repeat match goal with
  | |- context [match ?l with [] => _ | _ :: _ => _ end] => destruct l; try (exfalso; apply H; reflexivity)
  | |- context [if ?b then None else _] => destruct b; try (exfalso; apply H; reflexivity)
  | |- context [if ?b then Some _ else None] => destruct b; try (exfalso; apply H; reflexivity)
  end; try (exfalso; apply H; reflexivity); eauto.
Qed.

Lemma ginv_valid n g : valid_gate n g -> valid_gate n (ginv g).
Proof.
  intros V. destruct (valid_defined n g (fun _ => false) V) as (k & y & E). destruct (gate_inv g _ k y E) as (k' & x' & E' & _).
  split; [rewrite ginv_qubits; apply V|]. intros N.
  assert (X : forall x, gate_action (ginv g) x = None -> gate_action (ginv g) y = None).
  { intros x Hx. clear -Hx. unfold gate_action in *.
    repeat match goal with
    | |- context [if eqb ?a ?b then _ else _] => destruct (eqb a b)
    end; repeat match goal with
    | |- context [match ?l with [] => _ | _ :: _ => _ end] => destruct l; try discriminate
    | |- context [if ?b then None else _] => destruct b; try discriminate
    | |- context [if ?b then Some _ else None] => destruct b; try discriminate
    end; auto; discriminate. }
  rewrite (X _ N) in E'. discriminate.
Qed.

Lemma runs_inv n c : (forall g, In g c -> valid_gate n g) -> forall x k y, runs c x k y ->
  exists k' x', runs (circ_inverse c) y k' x' /\ eq8 k' (- k) /\ same n x' x.
Proof.
  induction c as [|g c IH]; intros Hv x k y H.
  - destruct H as [-> ->]. exists 0%Z, x. split; [split; reflexivity|]. split; [reflexivity | intros i _; reflexivity].
  - destruct H as (k1 & x1 & k2 & Hg & Hr & ->). destruct (IH (fun h Hh => Hv h (or_intror Hh)) x1 k2 y Hr) as (k' & x1' & Hr' & Hk & Hs).
    destruct (gate_inv g x k1 x1 Hg) as (k1' & x' & Hg' & Hk1 & He).
    pose proof (Hv g (or_introl eq_refl)) as Vg.
    destruct (gate_action_same n (ginv g) x1 x1' k1' x') as (x2 & Hg2 & Hs2).
    { rewrite ginv_qubits. apply Vg. } { intros i Hi. symmetry. apply Hs, Hi. } { exact Hg'. }
    exists (k' + k1')%Z, x2. split; [|split].
    + unfold circ_inverse. cbn [map rev]. apply runs_app with (y := x1'); [exact Hr'|]. exists k1', x2, 0%Z. split; [exact Hg2|]. split; [split; reflexivity | ring].
    + rewrite Hk, Hk1. apply eq8_k with 0%Z. ring.
    + intros i Hi. rewrite <- (Hs2 i Hi). apply He.
Qed.

Lemma circ_inverse_valid n c : (forall g, In g c -> valid_gate n g) -> forall g, In g (circ_inverse c) -> valid_gate n g.
Proof. intros H g Hg. unfold circ_inverse in Hg. apply in_rev, in_map_iff in Hg as (g' & <- & Hg). apply ginv_valid, H, Hg. Qed.
Lemma circ_inverse_plain n c : Forall (plain_gate n) c -> Forall (plain_gate n) (circ_inverse c).
Proof.
  rewrite !Forall_forall. intros H g Hg. unfold circ_inverse in Hg. apply in_rev, in_map_iff in Hg as (g' & <- & Hg). destruct (H g' Hg) as [V Ny].
  split; [apply ginv_valid, V | rewrite ginv_name; exact Ny].
Qed.

(** ** The general decomposition *)
Lemma poly_eqb_refl p : poly_eqb p p = true.
Proof. unfold poly_eqb. rewrite Z.eqb_refl, !eqb_refl. reflexivity. Qed.

Section Det.
Variable det_odd : list (list bool) -> bool.
Hypothesis Hdet : decides_invertible det_odd.

Lemma det_true n e : wf_cdi n e -> det_odd (dlin e) = true.
Proof.
  intros W. apply (Hdet n (dlin e) (wd_lin n e W) (wd_rows n e W)). intros x y H. apply (wd_inj n e W). intros i Hi. unfold image. rewrite (wd_n n e W), (H i Hi). reflexivity.
Qed.

Lemma decompose_general_spec n e : wf_cdi n e -> w0 (dpoly e) = 0%Z -> exists c, decompose_general det_odd e = Ok c /\ Forall (plain_gate n) c /\ implements n c e.
Proof.
  intros W Z0. unfold decompose_general. rewrite (det_true n e W). cbn [negb].
  destruct (reduce_affine_spec n e W) as ((ec & c) & -> & (Wc & Fc & (gl & Tc) & _) & Pc & Lc & Sc). cbn [bind fst snd] in *.
  rewrite (wd_n n e W), Sc, Lc, !eqb_refl. cbn [negb orb]. rewrite Pc.
  destruct (build_poly_spec n (dpoly e) (wd_pos n e W) (wd_poly n e W) (wd_special n e W) Z0) as (e0 & (ne & nc) & E0 & -> & D & P).
  cbn [bind fst snd] in *. subst. rewrite P, poly_eqb_refl. cbn [negb]. eexists. split; [reflexivity|].
  destruct D as ((Wn & Fn & (gl' & Tn) & _) & Ln & NSn). cbn [fst snd] in *. split; [apply Forall_app; split; [exact Fn | apply circ_inverse_plain, Fc]|].
  destruct (id_spec n (wd_pos n e W)) as (e0' & E0' & _ & _ & _ & _ & Ph0 & I0). rewrite E0 in E0'. injection E0' as <-.
  exists (gl' - gl)%Z. intros x.
  assert (Vn : forall g, In g nc -> valid_gate n g) by (intros g Hg; rewrite Forall_forall in Fn; apply Fn, Hg).
  assert (Vc : forall g, In g c -> valid_gate n g) by (intros g Hg; rewrite Forall_forall in Fc; apply Fc, Hg).
  destruct (Tn x) as (k1 & y1 & R1 & H1 & S1). destruct (runs_same n nc Vn _ x k1 y1 (I0 x) R1) as (y1' & R1' & S1').
  destruct (Tc x) as (k2 & y2 & R2 & H2 & S2). destruct (runs_inv n c Vc _ _ _ R2) as (k3 & z & R3 & H3 & S3).
  assert (Idn : same n (image ne x) x).
  { intros i Hi. unfold image. rewrite (wd_n n _ Wn), Ln. change (nth i (dshift ne) false) with (shift_of (ne, nc) i). rewrite NSn, xorb_false_r.
    apply parity_unit; [exact Hi|]. intros j Hj. apply eye_nth; assumption. }
  assert (Idc : same n (image ec x) x).
  { intros i Hi. unfold image. rewrite (wd_n n _ Wc), Lc, Sc. replace (nth i (repeat false n) false) with false.
    - rewrite xorb_false_r. apply parity_unit; [exact Hi|]. intros j Hj. apply eye_nth; assumption.
    - clear. revert i. induction n; intros [|i]; cbn; auto. }
  destruct (runs_same n (circ_inverse c) (circ_inverse_valid n c Vc) y2 y1' k3 z) as (z' & R3' & S3').
  { intros i Hi. rewrite (S2 i Hi), (Idc i Hi), <- (S1' i Hi), (S1 i Hi), (Idn i Hi). reflexivity. } { exact R3. }
  exists (k1 + k3)%Z, z'. split; [apply runs_app with (y := y1'); assumption|]. split.
  - assert (A : eq8 (phase_at e x) (gl' + k1)).
    { unfold phase_at at 1. rewrite <- P. change (eq8 (phase_at ne x) (gl' + k1)). rewrite H1, Ph0. apply eq8_k with 0%Z. ring. }
    assert (B : eq8 (gl + k2) 0).
    { assert (B' : eq8 (phase_at e x) (gl + phase_at e x + k2)) by (rewrite <- H2; unfold phase_at; rewrite Pc; reflexivity).
      apply eq8_iff in B' as (m & B'). apply eq8_k with (- m)%Z. lia. }
    rewrite A, H3. apply eq8_iff in B as (m & B). apply eq8_k with m. lia.
  - intros i Hi. rewrite <- (S3' i Hi). apply S3, Hi.
Qed.
End Det.
