(** Proofs about gate counts. *)
From Coq Require Import QArith Lqa.
From Verif Require Import Base ResultFacts RBUtilsModel RBUtilsSpec.
Open Scope nat_scope.

Lemma total_app l l' : total (l ++ l') = total l + total l'.
Proof. unfold total. induction l; cbn; lia. Qed.
Lemma total_perm l l' : Permutation l l' -> total l = total l'.
Proof. unfold total. induction 1; cbn; lia. Qed.

(** ** The shape of the dictionary *)
Definition rowkeys (d : ngates) (q : nat) : option (list pystr) := option_map (@dkeys _ _) (dget d q).
Definition same_shape (d d' : ngates) : Prop := dkeys d = dkeys d' /\ forall q, rowkeys d q = rowkeys d' q.
Lemma shape_refl d : same_shape d d. Proof. split; auto. Qed.
Lemma shape_trans a b c : same_shape a b -> same_shape b c -> same_shape a c.
Proof. intros [A B] [C D]. split; [congruence|]. intros q. rewrite B. apply D. Qed.

Lemma dget_mem {K V} `{Eqb K} (d : dict K V) k v : dget d k = Some v -> In k (dkeys d).
Proof. intros E. destruct (in_dec (fun a b => match eqb_spec a b with ReflectT _ e => left e | ReflectF _ e => right e end) k (dkeys d)) as [Hi|Hi]; [exact Hi|]. apply dget_None in Hi. congruence. Qed.

Lemma update_shape (d : ngates) q row b w v : dget d q = Some row -> dget row b = Some w -> same_shape (dset d q (dset row b v)) d.
Proof.
  intros Eq Eb. split; [apply dkeys_dset_In; eapply dget_mem, Eq|]. intros q'. unfold rowkeys. rewrite dget_dset.
  destruct (eqb_spec q' q) as [->|]; [|reflexivity]. rewrite Eq. cbn. f_equal. apply dkeys_dset_In. eapply dget_mem, Eb.
Qed.
Lemma update_entry (d : ngates) q row b v q' b' : dget d q = Some row ->
  entry (dset d q (dset row b v)) q' b' = if (q' =? q) && eqb b' b then Some v else entry d q' b'.
Proof.
  intros Eq. unfold entry. rewrite dget_dset. change (eqb q' q) with (q' =? q). destruct (Nat.eqb_spec q' q) as [->|]; [|reflexivity]. cbn [andb].
  rewrite dget_dset. destruct (eqb b' b); [reflexivity | rewrite Eq; reflexivity].
Qed.

Lemma bump_shape d q n : same_shape (bump d q n) d.
Proof. unfold bump. destruct (dget d q) as [row|] eqn:E; [|apply shape_refl]. destruct (dget row n) as [v|] eqn:E'; [|apply shape_refl]. eapply update_shape; eassumption. Qed.
Lemma bump_entry d q n q' b' : entry (bump d q n) q' b' =
  if (q' =? q) && eqb b' n then option_map (option_map (fun x => x + 1)%Q) (entry d q' b') else entry d q' b'.
Proof.
  unfold bump. destruct (dget d q) as [row|] eqn:E; [destruct (dget row n) as [v|] eqn:E'|].
  - rewrite (update_entry _ _ _ _ _ _ _ E). destruct (Nat.eqb_spec q' q) as [->|]; [|reflexivity]. destruct (eqb_spec b' n) as [->|]; [|reflexivity].
    cbn [andb]. unfold entry. rewrite E, E'. reflexivity.
  - destruct (Nat.eqb_spec q' q) as [->|]; [|reflexivity]. destruct (eqb_spec b' n) as [->|]; [|reflexivity]. cbn [andb]. unfold entry. rewrite E, E'. reflexivity.
  - destruct (Nat.eqb_spec q' q) as [->|]; [|reflexivity]. destruct (eqb b' n); cbn [andb]; [|reflexivity]. unfold entry. rewrite E. reflexivity.
Qed.

(** [adds d d' f]: every present number grows by [f q b]. *)
Definition adds (d d' : ngates) (f : nat -> pystr -> nat) : Prop :=
  same_shape d' d /\ forall q b x, entry d q b = Some (Some x) -> exists y, entry d' q b = Some (Some y) /\ (y == x + inject_Z (Z.of_nat (f q b)))%Q.
Lemma adds_zero d f : (forall q b, f q b = 0) -> adds d d f.
Proof. intros H. split; [apply shape_refl|]. intros q b x E. exists x. split; [exact E|]. rewrite H. change (inject_Z (Z.of_nat 0)) with 0%Q. lra. Qed.
Lemma adds_trans a b c f g h : adds a b f -> adds b c g -> (forall q n, h q n = f q n + g q n) -> adds a c h.
Proof.
  intros [S E] [S' E'] H. split; [eapply shape_trans; eassumption|]. intros q n x Ex. destruct (E q n x Ex) as (y & Ey & Hy). destruct (E' q n y Ey) as (z & Ez & Hz).
  exists z. split; [exact Ez|]. rewrite Hz, Hy, H, Nat2Z.inj_add, inject_Z_plus. lra.
Qed.
Lemma bump_adds d q n : adds d (bump d q n) (fun q' b' => if (q' =? q) && eqb b' n then 1 else 0).
Proof.
  split; [apply bump_shape|]. intros q' b' x E. rewrite bump_entry, E. destruct ((q' =? q) && eqb b' n); [exists (x + 1)%Q | exists x]; (split; [reflexivity|]).
  - change (inject_Z (Z.of_nat 1)) with 1%Q. lra.
  - change (inject_Z (Z.of_nat 0)) with 0%Q. lra.
Qed.
Lemma fold_adds {A} (step : ngates -> A -> ngates) (f : A -> nat -> pystr -> nat) l : (forall d a, adds d (step d a) (f a)) ->
  forall d, adds d (fold_left step l d) (fun q b => total (map (fun a => f a q b) l)).
Proof.
  intros H. induction l as [|a l IH]; intros d; cbn [fold_left map]; [apply adds_zero; reflexivity|].
  eapply adds_trans; [apply H | apply IH|]. intros q b. reflexivity.
Qed.

Lemma instr_adds d i : adds d (fold_left (fun d q => bump d q (iname i)) (iqubits i) d) (fun q b => acts q b i).
Proof.
  pose proof (fold_adds (fun d q => bump d q (iname i)) (fun q q' b' => if (q' =? q) && eqb b' (iname i) then 1 else 0) (iqubits i) (fun d a => bump_adds d a (iname i)) d) as [S E].
  split; [exact S|]. intros q b x Ex. destruct (E q b x Ex) as (y & Ey & Hy). exists y. split; [exact Ey|]. rewrite Hy.
  replace (total (map (fun a => if (q =? a) && eqb b (iname i) then 1 else 0) (iqubits i))) with (acts q b i); [lra|].
  clear. unfold acts. destruct (eqb_spec (iname i) b) as [<-|Hn].
  - induction (iqubits i) as [|a l IH]; [reflexivity|]. cbn [count_occ map]. destruct (eqb_spec (iname i) (iname i)); [|contradiction].
    destruct (Nat.eq_dec a q) as [->|Hne]; [rewrite Nat.eqb_refl; cbn [andb]; rewrite IH; reflexivity|]. destruct (Nat.eqb_spec q a); [congruence|]. cbn [andb]. rewrite IH. reflexivity.
  - symmetry. destruct (eqb_spec b (iname i)); [congruence|]. induction (iqubits i) as [|a l IH]; [reflexivity|]. cbn [map]. rewrite andb_false_r. exact IH.
Qed.
Lemma data_adds d data : adds d (count_data d data) (fun q b => gates_on q b data).
Proof. unfold count_data. apply (fold_adds (fun d i => fold_left (fun d q => bump d q (iname i)) (iqubits i) d) (fun i q b => acts q b i)). intros. apply instr_adds. Qed.

Lemma litem_adds d it : well_formed it -> exists d', count_litem d it = Ok d' /\ adds d d' (fun q b => total (map (gates_on q b) (circuits_of it))).
Proof.
  destruct it as [cs|es]; intros Hw; cbn [count_litem circuits_of].
  - cbn in Hw. revert d. induction cs as [|[data|] cs IH]; intros d; cbn [foldM flat_map].
    + exists d. split; [reflexivity | apply adds_zero; reflexivity].
    + cbn [count_citem bind]. destruct (IH (fun H => Hw (or_intror H)) (count_data d data)) as (d' & E & A). exists d'. split; [exact E|].
      eapply adds_trans; [apply data_adds | exact A|]. intros q b. reflexivity.
    + exfalso. apply Hw. left. reflexivity.
  - eexists. split; [reflexivity|]. apply (fold_adds count_data (fun data q b => gates_on q b data)). intros. apply data_adds.
Qed.
Lemma items_adds items : Forall well_formed items -> forall d, exists d', foldM count_litem items d = Ok d' /\ adds d d' (fun q b => total (map (gates_on q b) (all_circuits items))).
Proof.
  induction 1 as [|it items Hw _ IH]; intros d; cbn [foldM].
  - exists d. split; [reflexivity | apply adds_zero; reflexivity].
  - destruct (litem_adds d it Hw) as (d1 & -> & A1). cbn [bind]. destruct (IH d1) as (d2 & E2 & A2). exists d2. split; [exact E2|].
    eapply adds_trans; [exact A1 | exact A2|]. intros q b. unfold all_circuits. cbn [flat_map]. rewrite map_app, total_app. reflexivity.
Qed.

Lemma malformed_refused items : ~ Forall well_formed items -> forall d, foldM count_litem items d = Err QiskitError.
Proof.
  assert (Hc : forall cs d, In CNot cs -> foldM count_citem cs d = Err QiskitError).
  { induction cs as [|[data|] cs IH]; intros d H; [destruct H | | reflexivity]. destruct H as [H|H]; [discriminate|]. cbn [foldM count_citem bind]. apply IH, H. }
  induction items as [|it items IH]; intros Hn d; [exfalso; apply Hn; constructor|]. cbn [foldM].
  assert (D : well_formed it \/ ~ well_formed it).
  { destruct it as [cs|]; [|left; exact I]. cbn. destruct (existsb (fun c => match c with CNot => true | _ => false end) cs) eqn:E.
    - right. intros H. apply H. apply existsb_exists in E as (c & Hi & Hcn). destruct c; [discriminate | exact Hi].
    - left. intros H. assert (existsb (fun c => match c with CNot => true | _ => false end) cs = true) by (apply existsb_exists; exists CNot; auto). congruence. }
  destruct D as [Hw|Hw].
  - destruct (litem_adds d it Hw) as (d1 & -> & _). cbn [bind]. apply IH. intros H. apply Hn. constructor; assumption.
  - destruct it as [cs|]; [|contradiction Hw; exact I]. cbn [count_litem]. rewrite Hc; [reflexivity|]. cbn in Hw.
    assert (E : existsb (fun c => match c with CNot => true | _ => false end) cs = true).
    { destruct (existsb _ cs) eqn:E; [reflexivity|]. exfalso. apply Hw. intros H. assert (existsb (fun c => match c with CNot => true | _ => false end) cs = true) by (apply existsb_exists; exists CNot; auto). congruence. }
    apply existsb_exists in E as (c & Hi & Hcn). destruct c; [discriminate | exact Hi].
Qed.

(** ** Start *)
Lemma fold_dset_keys {K V} `{Eqb K} (f : K -> V) l : forall d : dict K V, NoDup l -> (forall k, In k l -> ~ In k (dkeys d)) -> 
  dkeys (fold_left (fun d k => dset d k (f k)) l d) = dkeys d ++ l.
Proof.
  induction l as [|k l IH]; intros d Hn Hd; cbn [fold_left]; [rewrite app_nil_r; reflexivity|]. inversion Hn; subst.
  rewrite IH; [| assumption |].
  - rewrite dkeys_dset_notIn by (apply Hd; left; reflexivity). unfold dkeys. rewrite map_app, <- app_assoc. reflexivity.
  - intros k' Hk' Hin. rewrite dkeys_dset_notIn in Hin by (apply Hd; left; reflexivity). unfold dkeys in Hin. rewrite map_app in Hin. apply in_app_or in Hin as [Hin|[Hin|[]]]; [apply (Hd k'); [right; exact Hk' | exact Hin] | cbn in Hin; congruence].
Qed.
Lemma fold_dset_get {K V} `{Eqb K} (f : K -> V) l : forall (d : dict K V) k, In k l -> dget (fold_left (fun d k => dset d k (f k)) l d) k = Some (f k).
Proof.
  assert (X : forall l (d : dict K V) k, dget d k = Some (f k) -> dget (fold_left (fun d k => dset d k (f k)) l d) k = Some (f k)).
  { induction l0 as [|a l0 IH]; intros d k E; [exact E|]. cbn [fold_left]. apply IH. rewrite dget_dset. destruct (eqb_spec k a) as [->|]; [reflexivity | exact E]. }
  induction l as [|a l IH]; intros d k Hk; [destruct Hk|]. cbn [fold_left]. destruct Hk as [->|Hk]; [apply X; rewrite dget_dset; destruct (eqb_spec k k); [reflexivity | contradiction] | apply IH, Hk].
Qed.

Lemma init_facts basis qubits : NoDup basis -> NoDup qubits ->
  dkeys (ngates_init basis qubits) = qubits /\ (forall q, In q qubits -> rowkeys (ngates_init basis qubits) q = Some basis) /\
  forall q b, In q qubits -> In b basis -> entry (ngates_init basis qubits) q b = Some (Some 0%Q).
Proof.
  intros Hb Hq. unfold ngates_init. set (row := fold_left _ basis _).
  assert (Hrow : dkeys row = basis).
  { unfold row. rewrite (fold_dset_keys (fun _ => Some 0%Q)); auto. }
  split; [rewrite (fold_dset_keys (fun _ => row)); auto|]. split.
  - intros q Hi. unfold rowkeys. rewrite (fold_dset_get (fun _ => row)) by exact Hi. cbn. rewrite Hrow. reflexivity.
  - intros q b Hi Hbi. unfold entry. rewrite (fold_dset_get (fun _ => row)) by exact Hi. unfold row. rewrite (fold_dset_get (fun _ => Some 0%Q)) by exact Hbi. reflexivity.
Qed.

(** ** Division *)
Lemma divide_step t d q b : entry d q b <> None -> exists d', divide t d (q, b) = Ok d' /\ same_shape d' d /\
  forall q' b', entry d' q' b' = if (q' =? q) && eqb b' b then option_map (fun v => np_div v t) (entry d q' b') else entry d q' b'.
Proof.
  intros He. unfold divide. cbn [fst snd]. unfold entry in He. unfold dget_e at 1. destruct (dget d q) as [row|] eqn:E; [|contradiction]. cbn [bind]. unfold dget_e. destruct (dget row b) as [v|] eqn:E'; [|contradiction]. cbn [bind].
  eexists. split; [reflexivity|]. split; [eapply update_shape; eassumption|]. intros q' b'. rewrite (update_entry _ _ _ _ _ _ _ E).
  destruct (Nat.eqb_spec q' q) as [->|]; [|reflexivity]. destruct (eqb_spec b' b) as [->|]; [|reflexivity]. cbn [andb]. unfold entry. rewrite E, E'. reflexivity.
Qed.
Lemma divide_all t l : forall d, NoDup l -> (forall q b, In (q, b) l -> entry d q b <> None) ->
  exists d', foldM (divide t) l d = Ok d' /\ same_shape d' d /\
  forall q b, entry d' q b = if mem (q, b) l then option_map (fun v => np_div v t) (entry d q b) else entry d q b.
Proof.
  induction l as [|[q b] l IH]; intros d Hn He; cbn [foldM].
  - exists d. split; [reflexivity|]. split; [apply shape_refl|]. reflexivity.
  - inversion Hn as [|? ? Hni Hn']; subst. destruct (divide_step t d q b (He q b (or_introl eq_refl))) as (d1 & -> & S1 & E1). cbn [bind].
    destruct (IH d1 Hn') as (d2 & E2 & S2 & F2).
    { intros q' b' Hi. rewrite E1. destruct (_ && _) ; [|apply He; right; exact Hi]. specialize (He q' b' (or_intror Hi)). destruct (entry d q' b'); [discriminate | contradiction]. }
    exists d2. split; [exact E2|]. split; [eapply shape_trans; eassumption|]. intros q' b'. rewrite F2, E1. unfold mem. cbn [existsb].
    change (eqb (q', b') (q, b)) with (prod_eqb (q', b') (q, b)). unfold prod_eqb. cbn [fst snd]. change (eqb q' q) with (q' =? q).
    destruct ((q' =? q) && eqb b' b) eqn:X; cbn [orb]; [|reflexivity].
    replace (existsb (eqb (q', b')) l) with false; [reflexivity|]. symmetry. destruct (existsb _ l) eqn:Y; [|reflexivity]. exfalso. apply Hni.
    apply andb_true_iff in X as [X1 X2]. apply Nat.eqb_eq in X1. destruct (eqb_spec b' b) as [->|]; [|discriminate]. subst q'.
    apply existsb_exists in Y as (z & Hz & Hzz). destruct (eqb_spec (q, b) z) as [<-|]; [exact Hz | discriminate].
Qed.

Lemma nodup_app_iff {A} (l m : list A) : NoDup (l ++ m) <-> NoDup l /\ NoDup m /\ forall x, In x l -> ~ In x m.
Proof.
  induction l as [|a l IH]; cbn; [split; [intros H; repeat split; auto; constructor | tauto]|].
  rewrite !NoDup_cons_iff, IH, in_app_iff. split.
  - intros (A1 & B & C & D). repeat split; auto. intros x [<-|H] K; [tauto | apply (D x); auto].
  - intros ((A1 & B) & C & D). split; [intros [H|H]; [tauto | apply (D a); auto]|]. repeat split; auto.
Qed.
Lemma nodup_prod {A B} (l : list A) (l' : list B) : NoDup l -> NoDup l' -> NoDup (list_prod l l').
Proof.
  induction 1 as [|a l Ha _ IH]; intros H'; cbn [list_prod]; [constructor|]. apply nodup_app_iff.
  split; [apply FinFun.Injective_map_NoDup; [intros x y E; congruence | exact H']|]. split; [apply IH, H'|].
  intros x Hx Hx'. apply in_map_iff in Hx as (b & <- & _). apply in_prod_iff in Hx' as [Hx' _]. contradiction.
Qed.

Lemma qsum_app l l' : (qsum (l ++ l') == qsum l + qsum l')%Q.
Proof. unfold qsum. induction l as [|a l IH]; cbn; [lra | rewrite IH; lra]. Qed.


Lemma cliffords_ok items lengths : Forall (fun it => length (circuits_of it) = length lengths) items -> (cliffords items lengths == denominator items lengths)%Q.
Proof.
  unfold cliffords, denominator. induction 1 as [|it items Hl _ IH]; [change (inject_Z (Z.of_nat (length (@nil litem)))) with 0%Q; cbn; lra|].
  cbn [flat_map]. rewrite qsum_app, IH. cbn [length]. rewrite Nat2Z.inj_succ. unfold Z.succ. rewrite inject_Z_plus. change (inject_Z 1) with 1%Q.
  replace (map (fun p => snd p + 1)%Q (combine (circuits_of it) lengths)) with (map (fun l => l + 1)%Q lengths); [lra|].
  revert Hl. clear. generalize (circuits_of it). intros cs. revert cs. induction lengths as [|l ls IHl]; intros [|c cs] Hl; try discriminate; [reflexivity|]. cbn. f_equal. apply IHl. cbn in Hl. lia.
Qed.

Lemma averages items lengths basis qubits : items <> [] -> Forall well_formed items -> NoDup basis -> NoDup qubits -> ~ (denominator items lengths == 0)%Q ->
  exists d, gates_per_clifford items lengths basis qubits = Ok d /\ dkeys d = qubits /\
    (forall q, In q qubits -> exists row, dget d q = Some row /\ dkeys row = basis) /\
    forall q b, In q qubits -> In b basis -> exists v, entry d q b = Some (Some v) /\ (v == per_clifford items (denominator items lengths) q b)%Q.
Proof.
  intros Hne Hw Hb Hq Hd. unfold gates_per_clifford. destruct items as [|it0 items0] eqn:Ei; [contradiction|]. rewrite <- Ei in *. clear Ei Hne.
  destruct (init_facts basis qubits Hb Hq) as (K & R & E). destruct (items_adds items Hw (ngates_init basis qubits)) as (d1 & -> & [S1 E1]). cbn [bind].
  fold (denominator items lengths).
  destruct (divide_all (denominator items lengths) (list_prod qubits basis) d1 (nodup_prod _ _ Hq Hb)) as (d2 & E2 & S2 & F2).
  { intros q b Hi. apply in_prod_iff in Hi as [Hiq Hib]. destruct (E1 q b 0%Q (E q b Hiq Hib)) as (y & -> & _). discriminate. }
  exists d2. split; [exact E2|]. pose proof (shape_trans _ _ _ S2 S1) as [Sk Sr]. split; [rewrite Sk; exact K|]. split.
  - intros q Hi. specialize (Sr q). rewrite (R q Hi) in Sr. unfold rowkeys in Sr. destruct (dget d2 q) as [row|]; [|discriminate]. exists row. split; [reflexivity|]. cbn in Sr. congruence.
  - intros q b Hi Hib. destruct (E1 q b 0%Q (E q b Hi Hib)) as (y & Ey & Hy). rewrite F2, Ey. replace (mem (q, b) (list_prod qubits basis)) with true.
    2: { symmetry. unfold mem. apply existsb_exists. exists (q, b). split; [apply in_prod_iff; auto|]. destruct (eqb_spec (q, b) (q, b)); [reflexivity | contradiction]. }
    cbn [option_map np_div]. destruct (Qeq_bool (denominator items lengths) 0) eqn:Z; [apply Qeq_bool_iff in Z; contradiction|].
    eexists. split; [reflexivity|]. unfold per_clifford. rewrite Hy. apply Qmult_comp; [lra | reflexivity].
Qed.

Lemma order_free items items' den den' q b : Permutation (all_circuits items) (all_circuits items') -> (den == den')%Q ->
  (per_clifford items den q b == per_clifford items' den' q b)%Q.
Proof. intros P E. unfold per_clifford. rewrite E. rewrite (total_perm _ _ (Permutation_map (gates_on q b) P)). reflexivity. Qed.

(** ** count_gates *)
Lemma last_index_spec l x : forall i acc, NoDup l -> last_index l x i acc = match list_index l x with Some j => Some (i + j) | None => acc end.
Proof.
  induction l as [|y l IH]; intros i acc Hn; cbn [last_index list_index]; [reflexivity|]. inversion Hn as [|? ? Hy Hn']; subst. rewrite IH by exact Hn'.
  destruct (eqb_spec y x) as [->|Hne].
  - replace (list_index l x) with (@None nat); [rewrite Nat.add_0_r; reflexivity|]. symmetry. clear - Hy. induction l as [|z l IH]; [reflexivity|]. cbn. destruct (eqb_spec z x) as [->|]; [exfalso; apply Hy; left; reflexivity|].
    rewrite IH; [reflexivity | intros H; apply Hy; right; exact H].
  - destruct (list_index l x); cbn; [f_equal; lia | reflexivity].
Qed.
Lemma list_index_nth (l : list pystr) x i : NoDup l -> i < length l -> (list_index l x = Some i <-> nth i l [] = x).
Proof.
  revert i. induction l as [|y l IH]; intros i Hn Hi; cbn in Hi; [lia|]. inversion Hn as [|? ? Hy Hn']; subst. cbn [list_index]. destruct (eqb_spec y x) as [->|Hne].
  - destruct i as [|i]; cbn [nth]; [tauto|]. split; [discriminate|]. intros E. exfalso. apply Hy. rewrite <- E. apply nth_In. lia.
  - destruct i as [|i]; cbn [nth]; [split; [destruct (list_index l x); discriminate | congruence]|]. rewrite <- (IH i Hn' ltac:(lia)). destruct (list_index l x); cbn; split; congruence.
Qed.

Lemma bump_at_nth (b k : nat) : forall (l : list nat) i, nth k (map (fun p => if fst p =? b then S (snd p) else snd p) (combine (seq i (length l)) l)) 0 =
  if (i + k =? b) && (k <? length l) then S (nth k l 0) else nth k l 0.
Proof.
  revert k. intros k l. revert k. induction l as [|a l IH]; intros k i; cbn [length seq combine map].
  - destruct k; rewrite andb_false_r; reflexivity.
  - destruct k as [|k]; cbn [nth fst snd].
    + rewrite Nat.add_0_r. destruct (i =? b); reflexivity.
    + rewrite IH. replace (S i + k) with (i + S k) by lia. reflexivity.
Qed.
Lemma bump_at_len b (l : list nat) : length (bump_at S b l) = length l.
Proof. unfold bump_at. rewrite map_length, combine_length, seq_length. lia. Qed.

Lemma count_instr_cell basis qubits m i qi bi : NoDup basis -> in_shape (length qubits) (length basis) m -> qi < length qubits -> bi < length basis ->
  in_shape (length qubits) (length basis) (count_instr basis qubits m i) /\
  cell (count_instr basis qubits m i) qi bi = cell m qi bi + (if eqb (iname i) (nth bi basis []) && mem (nth qi qubits 0) (iqubits i) then 1 else 0).
Proof.
  intros Hn [Hl Hr] Hq Hb. unfold count_instr. rewrite last_index_spec by exact Hn. cbn [Nat.add].
  destruct (list_index basis (iname i)) as [j|] eqn:Ej.
  - split.
    + split; [rewrite map_length, combine_length; lia|]. rewrite Forall_forall in *. intros r Hri. apply in_map_iff in Hri as ([q r'] & <- & Hi). apply in_combine_r in Hi. cbn [fst snd].
      destruct (mem q (iqubits i)); [rewrite bump_at_len|]; apply Hr, Hi.
    + unfold cell at 1. set (f := fun p : nat * list nat => if mem (fst p) (iqubits i) then bump_at S j (snd p) else snd p).
      rewrite (nth_indep (map f (combine qubits m)) [] (f (0, []))) by (rewrite map_length, combine_length; lia). rewrite map_nth, combine_nth by lia. unfold f. cbn [fst snd].
      assert (Hrow : length (nth qi m []) = length basis) by (rewrite Forall_forall in Hr; apply Hr, nth_In; lia).
      destruct (mem (nth qi qubits 0) (iqubits i)); [|rewrite andb_false_r; unfold cell; lia]. rewrite andb_true_r. unfold bump_at. rewrite bump_at_nth. cbn [Nat.add]. rewrite Hrow.
      replace (bi <? length basis) with true by (symmetry; apply Nat.ltb_lt, Hb). rewrite andb_true_r. unfold cell.
      pose proof (list_index_nth basis (iname i) bi Hn Hb) as X. destruct (Nat.eqb_spec bi j) as [Hbj|Hne]; destruct (eqb_spec (iname i) (nth bi basis [])) as [E|E]; try lia.
      * exfalso. apply E. symmetry. apply X. rewrite Hbj. exact Ej.
      * exfalso. apply Hne. symmetry in E. apply X in E. congruence.
  - split; [split; assumption|]. destruct (eqb_spec (iname i) (nth bi basis [])) as [E|E]; [|cbn [andb]; lia]. symmetry in E. apply (list_index_nth basis (iname i) bi Hn Hb) in E. congruence.
Qed.


Lemma count_data_cells basis qubits qi bi data : NoDup basis -> qi < length qubits -> bi < length basis -> forall m, in_shape (length qubits) (length basis) m ->
  in_shape (length qubits) (length basis) (fold_left (count_instr basis qubits) data m) /\
  cell (fold_left (count_instr basis qubits) data m) qi bi = cell m qi bi + instrs_on (nth qi qubits 0) (nth bi basis []) data.
Proof.
  intros Hn Hq Hb. induction data as [|i data IH]; intros m Hm; cbn [fold_left]; [split; [exact Hm | unfold instrs_on; cbn; lia]|].
  destruct (count_instr_cell basis qubits m i qi bi Hn Hm Hq Hb) as [S E]. destruct (IH _ S) as [S' E']. split; [exact S'|]. rewrite E', E. unfold instrs_on. cbn [filter].
  destruct (eqb (iname i) (nth bi basis []) && mem (nth qi qubits 0) (iqubits i)); cbn [length]; lia.
Qed.

Lemma count_gates_cells experiments basis qubits e data qi bi : NoDup basis -> nth_error experiments e = Some data -> qi < length qubits -> bi < length basis ->
  exists m, nth_error (count_gates experiments basis qubits) e = Some m /\ in_shape (length qubits) (length basis) m /\
    cell m qi bi = instrs_on (nth qi qubits 0) (nth bi basis []) data.
Proof.
  intros Hn He Hq Hb. unfold count_gates. rewrite nth_error_map, He. cbn [option_map]. eexists. split; [reflexivity|].
  destruct (count_data_cells basis qubits qi bi data Hn Hq Hb (map (fun _ => repeat 0 (length basis)) qubits)) as [S E].
  - split; [apply map_length|]. apply Forall_forall. intros r Hr. apply in_map_iff in Hr as (q & <- & _). apply repeat_length.
  - split; [exact S|]. rewrite E. unfold cell.
    replace (nth bi (nth qi (map (fun _ : nat => repeat 0 (length basis)) qubits) []) 0) with 0; [lia|].
    clear - Hq. revert qi Hq. induction qubits as [|a l IH]; intros qi Hq; cbn in Hq; [lia|]. destruct qi as [|qi]; cbn [map nth]; [|apply IH; lia].
    generalize (length basis). intros n. clear. revert bi. induction n; intros [|b]; cbn; auto.
Qed.
