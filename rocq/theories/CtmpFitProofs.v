(** Proofs about the fitted CTMP rates (C35). *)
From Coq Require Import QArith QArith.Qcanon Qreals Reals Lqa Lra.
From Coquelicot Require Import Coquelicot.
From Verif Require Import LinAlg Base ResultFacts CountsModel CountsSpec CountsProofs QcFacts ExpvalModel ExpvalSpec ExpvalProofs
  ExpvalVecProofs ExpvalTensProofs ExpvalGammaProofs ExpvalCalProofs ExpvalCompProofs CtmpModel CtmpSpec CtmpProofs CtmpExpProofs CtmpMainProofs.
Open Scope nat_scope.

Section Fit.
Variable logm : qmat -> option qmat.
Variables (data : cal_data) (n : nat).

(** [l j k] is the logarithm of the calibration matrix of the pair. *)
Definition log_of (l : nat -> nat -> nat -> nat -> Qc) (j k : nat) : Prop :=
  exists d A, assignment_matrix data n (Some [j; k]) = Ok (d, A) /\ logm A = Some (l j k).

(** A generator list the fitter can handle. *)
Definition fit_gen (gens : list gen) (g : gen) : Prop :=
  (exists j, g_q g = [j] /\ j < n /\ (g_b g = str "1" /\ g_a g = str "0" \/ g_b g = str "0" /\ g_a g = str "1") /\
     forall k, k < n -> k <> j -> exists g', In g' gens /\ g_q g' = [j; k]) \/
  (exists j k, g_q g = [j; k] /\ length (g_b g) = 2 /\ length (g_a g) = 2 /\ is_bits (g_b g) /\ is_bits (g_a g) /\ g_b g <> g_a g).
Definition fit_rate (l : nat -> nat -> nat -> nat -> Qc) (g : gen) : Qc :=
  match g_q g with
  | [j] => single_rate l n j (nth 0 (g_a g) "0"%char) (nth 0 (g_b g) "0"%char)
  | [j; k] => pair_rate l j k (g_b g) (g_a g)
  | _ => 0%Qc
  end.

Definition clip_mat (m : qmat) : qmat := fun i j => if (i =? j) then m i j else if Qc_ltb (m i j) 0 then 0%Qc else m i j.
Definition pair_of (q : list nat) (l : nat -> nat -> nat -> nat -> Qc) : qmat := match q with [j; k] => clip_mat (l j k) | _ => fun _ _ => 0%Qc end.

Lemma supp_In gens g : In g (supplementary gens) <->
  (exists g', In g' gens /\ g_q g' = g_q g) /\
  (g_b g = str "10" /\ g_a g = str "00" \/ g_b g = str "00" /\ g_a g = str "10" \/ g_b g = str "11" /\ g_a g = str "01" \/ g_b g = str "01" /\ g_a g = str "11").
Proof.
  assert (Hd : forall ls (q : list nat), In q (fold_right (fun q l => if mem q l then l else q :: l) [] ls) <-> In q ls).
  { induction ls as [|x ls IH]; intros q; [tauto|]. cbn [fold_right]. destruct (mem x _) eqn:E.
    - apply mem_In in E. rewrite IH. rewrite IH in E. cbn. split; [auto|]. intros [<-|?]; assumption.
    - cbn [In]. rewrite IH. tauto. }
  unfold supplementary. rewrite in_flat_map. split.
  - intros (q & Hq & Hin). rewrite Hd in Hq. apply in_map_iff in Hq as (g' & <- & Hg'). 
    destruct Hin as [<-|[<-|[<-|[<-|[]]]]]; cbn [g_b g_a g_q]; (split; [exists g'; auto | auto]).
  - intros ((g' & Hg' & Eq) & H). exists (g_q g). split; [rewrite Hd; rewrite <- Eq; apply in_map; exact Hg'|].
    destruct g as [b a q]. cbn [g_b g_a g_q] in *. destruct H as [[-> ->]|[[-> ->]|[[-> ->]|[-> ->]]]]; cbn; auto.
Qed.

Lemma mem_cons (g g0 : gen) gs : mem g (g0 :: gs) = eqb g g0 || mem g gs.
Proof. reflexivity. Qed.
Lemma gen_mats_fold l gs : (forall g, In g gs -> 1 < length (g_q g) -> exists j k, g_q g = [j; k] /\ log_of l j k) ->
  forall acc, exists mats, foldM (fun mats g => if 1 <? length (g_q g) then do m <- local_g_matrix logm g data n; Ok (dset mats g m) else Ok mats) gs acc = Ok mats /\
    forall g, dget mats g = if mem g gs && (1 <? length (g_q g)) then Some (pair_of (g_q g) l) else dget acc g.
Proof.
  induction gs as [|g0 gs IH]; intros H acc; cbn [foldM].
  - exists acc. split; reflexivity.
  - assert (IHg := IH (fun g Hg => H g (or_intror Hg))). destruct (Nat.ltb_spec 1 (length (g_q g0))) as [Hlt|Hle].
    + destruct (H g0 (or_introl eq_refl) Hlt) as (j & k & Eq & d & A & EA & EL).
      assert (Em : local_g_matrix logm g0 data n = Ok (clip_mat (l j k))).
      { unfold local_g_matrix. rewrite Eq, EA. cbn [bind snd]. rewrite EL. reflexivity. }
      rewrite Em. cbn [bind]. destruct (IHg (dset acc g0 (clip_mat (l j k)))) as (mats & Ef & Hm). exists mats. split; [exact Ef|].
      intros g. rewrite Hm, dget_dset, mem_cons. destruct (eqb_spec g g0) as [->|Hn].
      * cbn [orb andb]. apply Nat.ltb_lt in Hlt. rewrite Hlt. rewrite Eq. cbn [pair_of]. destruct (mem g0 gs); reflexivity.
      * cbn [orb]. reflexivity.
    + cbn [bind]. destruct (IHg acc) as (mats & Ef & Hm). exists mats. split; [exact Ef|]. intros g. rewrite Hm, mem_cons.
      destruct (eqb_spec g g0) as [->|Hn]; [|reflexivity]. apply Nat.ltb_ge in Hle. rewrite Hle, !andb_false_r. reflexivity.
Qed.

Lemma two_bits s : length s = 2 -> is_bits s -> int2 s = Ok (binary_value 0 s) /\ binary_value 0 s < 4.
Proof.
  intros Hl Hb. split; [apply int2_ok; [exact Hb | intros ->; discriminate]|].
  destruct s as [|c [|c' [|]]]; try discriminate. destruct (Hb c (or_introl eq_refl)) as [-> | ->], (Hb c' (or_intror (or_introl eq_refl))) as [-> | ->]; cbn; lia.
Qed.
Lemma two_bits_inj s t : length s = 2 -> length t = 2 -> is_bits s -> is_bits t -> s <> t -> binary_value 0 s <> binary_value 0 t.
Proof.
  intros Hl Hl' Hb Hb' Hn. destruct s as [|c [|c' [|]]]; try discriminate. destruct t as [|e [|e' [|]]]; try discriminate.
  destruct (Hb c (or_introl eq_refl)) as [-> | ->], (Hb c' (or_intror (or_introl eq_refl))) as [-> | ->],
    (Hb' e (or_introl eq_refl)) as [-> | ->], (Hb' e' (or_intror (or_introl eq_refl))) as [-> | ->]; cbn; congruence.
Qed.

Lemma clip_pair l j k b a : length b = 2 -> length a = 2 -> is_bits b -> is_bits a -> b <> a ->
  clip_mat (l j k) (binary_value 0 b) (binary_value 0 a) = pair_rate l j k b a.
Proof.
  intros Hlb Hla Hb Ha Hn. unfold clip_mat, pair_rate, clipped. pose proof (two_bits_inj b a Hlb Hla Hb Ha Hn) as Hne.
  apply Nat.eqb_neq in Hne. rewrite Hne. unfold Qc_ltb. destruct (Qclt_le_dec (l j k (binary_value 0 b) (binary_value 0 a)) 0); reflexivity.
Qed.

Lemma rate_2q l mats g j k : dget mats g = Some (pair_of (g_q g) l) -> g_q g = [j; k] ->
  length (g_b g) = 2 -> length (g_a g) = 2 -> is_bits (g_b g) -> is_bits (g_a g) -> g_b g <> g_a g ->
  err_rate_2q g mats = Ok (pair_rate l j k (g_b g) (g_a g)).
Proof.
  intros Hd Hq Hlb Hla Hb Ha Hn. unfold err_rate_2q, dget_e. rewrite Hd. cbn [bind].
  destruct (two_bits _ Hlb Hb) as [-> Lb], (two_bits _ Hla Ha) as [-> La]. cbn [bind].
  apply Nat.ltb_lt in Lb, La. rewrite Lb, La. cbn [andb]. rewrite Hq. cbn [pair_of]. rewrite clip_pair by assumption. reflexivity.
Qed.

Lemma partners_length {A} (gs : list A) j : j < n -> length (flat_map (fun k => if k =? j then [] else map (fun g => (k, g)) gs) (seq 0 n)) = length gs * (n - 1).
Proof.
  assert (H : forall m, length (flat_map (fun k => if k =? j then [] else map (fun g => (k, g)) gs) (seq 0 m)) = length gs * (m - if j <? m then 1 else 0)).
  { induction m as [|m IH]; [rewrite Nat.sub_0_l; cbn; lia|]. rewrite seq_S, flat_map_app, app_length, IH. cbn [flat_map Nat.add]. rewrite app_nil_r.
    destruct (Nat.eqb_spec m j) as [->|Hn].
    - replace (j <? j) with false by (symmetry; apply Nat.ltb_ge; lia). replace (j <? S j) with true by (symmetry; apply Nat.ltb_lt; lia). cbn [length]. rewrite Nat.add_0_r, Nat.sub_0_r, Nat.sub_succ, Nat.sub_0_r. reflexivity.
    - rewrite map_length. destruct (Nat.ltb_spec j m), (Nat.ltb_spec j (S m)); try lia; rewrite <- Nat.mul_succ_r; f_equal; lia. }
  intros Hj. rewrite H. apply Nat.ltb_lt in Hj. rewrite Hj. reflexivity.
Qed.

Lemma mean_1q l mats j b a : 2 <= n -> j < n ->
  (forall k, k < n -> k <> j -> forall c, c = "0"%char \/ c = "1"%char -> err_rate_2q {| g_b := [b; c]; g_a := [a; c]; g_q := [j; k] |} mats = Ok (pair_rate l j k [b; c] [a; c])) ->
  exists rates, mapM (fun kg => err_rate_2q {| g_b := fst (snd kg); g_a := snd (snd kg); g_q := [j; fst kg] |} mats)
     (flat_map (fun k => if k =? j then [] else map (fun g => (k, g)) [([b; "0"%char], [a; "0"%char]); ([b; "1"%char], [a; "1"%char])]) (seq 0 n)) = Ok rates /\
    (if Z.eqb (Z.of_nat (length rates)) (2 * (Z.of_nat n - 1)) then Ok (match rates with [] => None | _ => Some (fsum rates / qz (Z.of_nat (length rates)))%Qc end) else Err ValueError)
    = Ok (Some (single_rate l n j b a)).
Proof.
  intros Hn Hj H. set (L := flat_map _ _). assert (HL : length L = 2 * (n - 1)) by (apply (partners_length [([b; "0"%char], [a; "0"%char]); ([b; "1"%char], [a; "1"%char])] j Hj)).
  set (f := fun kg : nat * (pystr * pystr) => pair_rate l j (fst kg) (fst (snd kg)) (snd (snd kg))).
  exists (map f L). split.
  - apply mapM_ok. intros [k [s t]] Hin. cbn [fst snd]. unfold L in Hin. apply in_flat_map in Hin as (k' & Hk & Hin). apply in_seq in Hk.
    destruct (Nat.eqb_spec k' j) as [|Hne]; [destruct Hin|]. destruct Hin as [[= <- <- <-]|[[= <- <- <-]|[]]]; apply H; auto; lia.
  - rewrite map_length, HL. replace (Z.of_nat (2 * (n - 1)) =? 2 * (Z.of_nat n - 1))%Z with true by (symmetry; apply Z.eqb_eq; lia).
    destruct L as [|x L'] eqn:EL; [cbn in HL; lia|]. cbn [map]. f_equal. f_equal. unfold single_rate. change (f x :: map f L') with (map f (x :: L')). rewrite <- EL.
    replace (Z.of_nat (2 * (n - 1))) with (2 * (Z.of_nat n - 1))%Z by lia. f_equal. unfold L. clear -f. unfold sum_lt. cbn [map].
    induction (seq 0 n) as [|k ks IH]; [reflexivity|]. cbn [flat_map map]. rewrite map_app, fsum_app, fsum_cons, IH. f_equal.
    destruct (k =? j); [reflexivity|]. cbn [map]. rewrite !fsum_cons. unfold f. cbn [fst snd]. change (fsum []) with 0%Qc. cbn [fadd Fld_Qc]. ring.
Qed.

Lemma fit_rates l gens : 2 <= n -> (forall g, In g gens -> fit_gen gens g) ->
  (forall g j k, In g gens -> g_q g = [j; k] -> log_of l j k) ->
  fitted_rates logm data n gens = Ok (map (fun g => Some (fit_rate l g)) gens).
Proof.
  intros Hn Hg Hlog. unfold fitted_rates, gen_mats.
  assert (Hall : forall g, In g (gens ++ supplementary gens) -> 1 < length (g_q g) -> exists j k, g_q g = [j; k] /\ log_of l j k).
  { intros g Hin Hl. assert (exists g', In g' gens /\ g_q g' = g_q g) as (g' & Hg' & Eq).
    { apply in_app_or in Hin as [Hin|Hin]; [exists g; auto|]. apply supp_In in Hin as [Hin _]. exact Hin. }
    rewrite <- Eq in *. destruct (Hg g' Hg') as [(j & Ej & _)|(j & k & Ejk & _)]; [rewrite Ej in Hl; cbn in Hl; lia|].
    exists j, k. split; [exact Ejk | exact (Hlog g' j k Hg' Ejk)]. }
  destruct (gen_mats_fold l _ Hall []) as (mats & -> & Hm). cbn [bind]. apply mapM_ok. intros g Hin. unfold get_error_rate, fit_rate.
  destruct (Hg g Hin) as [(j & Ej & Hj & Hba & Hp)|(j & k & Ejk & Hlb & Hla & Hb & Ha & Hne)].
  - rewrite Ej.
    assert (Hkey : forall b a k, k < n -> k <> j -> (b = "0"%char /\ a = "1"%char \/ b = "1"%char /\ a = "0"%char) -> forall c, c = "0"%char \/ c = "1"%char ->
       err_rate_2q {| g_b := [b; c]; g_a := [a; c]; g_q := [j; k] |} mats = Ok (pair_rate l j k [b; c] [a; c])).
    { intros b a k Hk Hkj Hab c Hc. set (h := {| g_b := [b; c]; g_a := [a; c]; g_q := [j; k] |}).
      apply (rate_2q l mats h j k); try reflexivity.
      - rewrite Hm. replace (mem h (gens ++ supplementary gens)) with true; [reflexivity|]. symmetry. apply mem_In. apply in_or_app. right. apply supp_In. split.
        + destruct (Hp k Hk Hkj) as (g' & Hg' & Eg'). exists g'. auto.
        + cbn. destruct Hab as [[-> ->]|[-> ->]], Hc as [-> | ->]; auto.
      - intros x [<-|[<-|[]]]; [destruct Hab as [[-> _]|[-> _]]; auto | exact Hc].
      - intros x [<-|[<-|[]]]; [destruct Hab as [[_ ->]|[_ ->]]; auto | exact Hc].
      - cbn. destruct Hab as [[-> ->]|[-> ->]]; intros [= E]; discriminate. }
    destruct Hba as [[-> ->]|[-> ->]]; change (length (str "1") =? 1) with true; change (length (str "0") =? 1) with true; cbn [index_e nth_error nth bind].
    + unfold err_rate_1q. change (eqb (str "0") (str "0") && eqb (str "1") (str "1")) with true. cbn [bind].
      destruct (mean_1q l mats j "0"%char "1"%char Hn Hj (fun k Hk Hkj => Hkey _ _ k Hk Hkj (or_introl (conj eq_refl eq_refl)))) as (rates & E & Er).
      change (str "00") with ["0"%char; "0"%char]; change (str "01") with ["0"%char; "1"%char]; change (str "10") with ["1"%char; "0"%char]; change (str "11") with ["1"%char; "1"%char].
      rewrite E. cbn [bind]. exact Er.
    + unfold err_rate_1q. change (eqb (str "1") (str "0") && eqb (str "0") (str "1")) with false. change (eqb (str "1") (str "1") && eqb (str "0") (str "0")) with true. cbn [bind].
      destruct (mean_1q l mats j "1"%char "0"%char Hn Hj (fun k Hk Hkj => Hkey _ _ k Hk Hkj (or_intror (conj eq_refl eq_refl)))) as (rates & E & Er).
      change (str "00") with ["0"%char; "0"%char]; change (str "01") with ["0"%char; "1"%char]; change (str "10") with ["1"%char; "0"%char]; change (str "11") with ["1"%char; "1"%char].
      rewrite E. cbn [bind]. exact Er.
  - rewrite Hlb, Ejk. change (2 =? 1) with false. change (2 =? 2) with true. cbv iota.
    rewrite (rate_2q l mats g j k); try assumption; [reflexivity|]. rewrite Hm. replace (mem g (gens ++ supplementary gens)) with true by (symmetry; apply mem_In, in_or_app; auto).
    rewrite Ejk. reflexivity.
Qed.

(** The standard generators. *)
Lemma standard_fit gens : 2 <= n -> standard_generator_set n None = Ok gens -> forall g, In g gens -> fit_gen gens g.
Proof.
  intros Hn E. destruct (standard_set n ltac:(lia)) as (gens' & E' & _ & _ & Hin). rewrite E in E'. injection E' as <-.
  intros [b a q] Hg. apply Hin in Hg. unfold fit_gen. cbn [g_b g_a g_q].
  assert (Hbits : forall l, forallb (fun c => Ascii.eqb c "0" || Ascii.eqb c "1") l = true -> is_bits l).
  { intros l Hl c Hc. rewrite forallb_forall in Hl. specialize (Hl c Hc). apply orb_prop in Hl as [Hl|Hl]; apply Ascii.eqb_eq in Hl; auto. }
  destruct Hg as [(i & Hi & -> & Hba)|[(i & j & Hi & -> & Hba)|(i & j & Hi & Hj & Hij & -> & -> & ->)]].
  - left. exists i. split; [reflexivity|]. split; [exact Hi|]. split; [exact Hba|]. intros k Hk Hki.
    exists {| g_b := str "10"; g_a := str "01"; g_q := [i; k] |}. split; [|reflexivity]. apply Hin. right; right. exists i, k. repeat split; auto.
  - right. exists i, j. destruct Hba as [[-> ->]|[-> ->]]; repeat split; try (apply Hbits; reflexivity); intros E'; discriminate.
  - right. exists i, j. repeat split; try (apply Hbits; reflexivity); intros E'; discriminate.
Qed.

Lemma standard_pair gens i k : standard_generator_set n None = Ok gens -> i < n -> k < n -> i <> k -> exists g, In g gens /\ g_q g = [i; k].
Proof.
  intros E Hi Hk Hik. destruct (standard_set n ltac:(lia)) as (gens' & E' & _ & _ & Hin). rewrite E in E'. injection E' as <-.
  exists {| g_b := str "10"; g_a := str "01"; g_q := [i; k] |}. split; [|reflexivity]. apply Hin. right; right. exists i, k. repeat split; auto.
Qed.
Lemma standard_pair_inv gens g i k : standard_generator_set n None = Ok gens -> 1 <= n -> In g gens -> g_q g = [i; k] -> i < n /\ k < n /\ i <> k.
Proof.
  intros E Hn Hg Hq. destruct (standard_set n Hn) as (gens' & E' & _ & _ & Hin). rewrite E in E'. injection E' as <-. destruct g as [b a q]. cbn in Hq. subst q.
  apply Hin in Hg as [(i' & _ & ? & _)|[(i' & j' & H & [= -> ->] & _)|(i' & j' & Hi & Hj & Hij & [= -> ->] & _)]]; [discriminate | lia | lia].
Qed.

Lemma max_e_seq l : l <> [] -> exists m, max_e l = Ok m /\ (forall x, In x l -> x <= m) /\ In m l.
Proof.
  destruct l as [|x l]; [congruence|]. intros _. cbn [max_e]. eexists. split; [reflexivity|]. revert x. induction l as [|y l IH]; intros x; cbn [fold_left].
  - split; [intros z [<-|[]]; lia | left; reflexivity].
  - destruct (IH (Nat.max x y)) as [Hle Hin]. split.
    + intros z [<-|[<-|Hz]]; [| |apply Hle; right; exact Hz]; specialize (Hle (Nat.max x y) (or_introl eq_refl)); lia.
    + destruct Hin as [Hin|Hin]; [|right; right; exact Hin]. destruct (Nat.max_spec x y) as [[_ E]|[_ E]]; rewrite <- Hin, E; cbn; auto.
Qed.

Lemma standard_size gens rates ct : 1 <= n -> standard_generator_set n None = Ok gens -> ctmp_init gens rates None = Ok ct -> ct_n ct = n.
Proof.
  intros Hn E. destruct (standard_set n Hn) as (gens' & E' & _ & _ & Hin). rewrite E in E'. injection E' as <-. unfold ctmp_init. intros H. inv_bind H. injection H as <-. cbn [ct_n].
  rename E0 into E1. inv_bind E1. rename E0 into Ems. rename v0 into x0. destruct (max_e x0) as [mm|] eqn:Em; [|discriminate]. cbn [bind] in E1. injection E1 as <-.
  assert (Hb : forall g, In g gens -> exists m, max_e (g_q g) = Ok m /\ m < n).
  { intros [b a q] Hg. apply Hin in Hg as [(i & Hi & -> & _)|[(i & j & Hi & -> & _)|(i & j & Hi & Hj & Hij & -> & _)]]; cbn; eexists; (split; [reflexivity | lia]). }
  pose proof (mapM_inv _ _ _ Ems) as HF.
  assert (Hnl : In (n - 1) x0).
  { assert (Hgl : In {| g_b := str "1"; g_a := str "0"; g_q := [n - 1] |} gens) by (apply Hin; left; exists (n - 1); split; [lia | auto]).
    destruct (Forall2_in_l _ _ _ _ HF Hgl) as (m & Hm & Em'). cbn in Em'. injection Em' as <-. exact Hm. }
  destruct (max_e_seq x0 ltac:(intros ->; destruct Hnl)) as (m & Em' & Hle & Hmin). rewrite Em in Em'. injection Em' as <-.
  destruct (Forall2_in_r _ _ _ _ HF Hmin) as (g & Hg & Eg). destruct (Hb g Hg) as (m' & Em'' & Hlt). rewrite Eg in Em''. injection Em'' as <-. specialize (Hle _ Hnl). lia.
Qed.

Lemma init_total gens rates : gens <> [] -> (forall g, In g gens -> g_q g <> []) -> exists ct, ctmp_init gens rates None = Ok ct.
Proof.
  intros Hg Hq. unfold ctmp_init. assert (exists ms, mapM (fun g => max_e (g_q g)) gens = Ok ms /\ ms <> []) as (ms & -> & Hms).
  { clear rates. induction gens as [|g gens IH]; [congruence|]. cbn [mapM]. destruct (max_e_seq (g_q g) (Hq g (or_introl eq_refl))) as (m & -> & _). cbn [bind].
    destruct gens as [|g' gens]; [exists [m]; split; [reflexivity | discriminate]|].
    destruct (IH ltac:(discriminate) ltac:(intros; apply Hq; right; assumption)) as (ms & -> & _). cbn [bind]. eexists. split; [reflexivity | discriminate]. }
  cbn [bind]. destruct (max_e_seq ms Hms) as (m & -> & _). cbn [bind]. eexists. reflexivity.
Qed.

Lemma fit_standard l : 2 <= n -> (forall j k, j < n -> k < n -> j <> k -> log_of l j k) ->
  exists gens ct, standard_generator_set n None = Ok gens /\ fit_ctmp logm data n None = Ok ct /\ ct_n ct = n /\
    (forall g r, In (g, r) (ct_gens ct) <-> In g gens /\ r = fit_rate l g /\ (threshold < r)%Qc).
Proof.
  intros Hn Hl. destruct (standard_set n ltac:(lia)) as (gens & E & HL & Hv & Hin). exists gens.
  assert (Hr : fitted_rates logm data n gens = Ok (map (fun g => Some (fit_rate l g)) gens)).
  { apply fit_rates; [exact Hn | apply standard_fit; assumption|]. intros g j k Hg Hq.
    destruct (standard_pair_inv gens g j k E ltac:(lia) Hg Hq) as (Hj & Hk & Hjk). apply Hl; assumption. }
  assert (Hne : gens <> []) by (intros ->; cbn in HL; destruct n; lia).
  assert (Hq : forall g, In g gens -> g_q g <> []).
  { intros [b a q] Hg. apply Hin in Hg as [(i & Hi & -> & _)|[(i & j & Hi & -> & _)|(i & j & Hi & Hj & Hij & -> & _)]]; discriminate. }
  destruct (init_total gens (map (fun g => Some (fit_rate l g)) gens) Hne Hq) as (ct & Ect). exists ct.
  split; [exact E|]. split; [unfold fit_ctmp; rewrite E; cbn [bind]; rewrite Hr; cbn [bind]; exact Ect|].
  split; [apply (standard_size gens _ ct ltac:(lia) E Ect)|]. intros g r. unfold ctmp_init in Ect. inv_bind Ect. injection Ect as <-. cbn [ct_gens]. rewrite in_flat_map. split.
  - intros ([o g'] & Hc & Hg). cbn [fst snd] in Hg. destruct o as [r'|]; [|destruct Hg]. unfold Qc_ltb in Hg. destruct (Qclt_le_dec threshold r') as [Hlt|]; [|destruct Hg].
    destruct Hg as [[= <- <-]|[]]. split; [eapply in_combine_r; exact Hc|]. split; [|exact Hlt].
    clear -Hc. induction gens as [|g0 gens IH]; [destruct Hc|]. cbn in Hc. destruct Hc as [[= <- <-]|Hc]; [reflexivity | apply IH; exact Hc].
  - intros (Hg & -> & Hlt). exists (Some (fit_rate l g), g). split.
    + clear -Hg. induction gens as [|g0 gens IH]; [destruct Hg|]. cbn. destruct Hg as [->|Hg]; [left; reflexivity | right; apply IH; exact Hg].
    + cbn [fst snd]. unfold Qc_ltb. destruct (Qclt_le_dec threshold (fit_rate l g)) as [_|Hle]; [left; reflexivity|]. exfalso. exact (Qclt_not_le _ _ Hlt Hle).
Qed.

(** A pair that was not calibrated, or whose logarithm is complex. *)
Lemma fit_bad_pair j k : j < n -> k < n -> j <> k ->
  (forall d A, assignment_matrix data n (Some [j; k]) = Ok (d, A) -> logm A = None) ->
  fit_ctmp logm data n None = Err QiskitError.
Proof.
  intros Hj Hk Hjk Hbad. assert (Hn : 1 <= n) by lia. destruct (standard_set n Hn) as (gens & E & _ & _ & Hin).
  destruct (standard_pair gens j k E Hj Hk Hjk) as (g & Hg & Hq). unfold fit_ctmp, fitted_rates, gen_mats. rewrite E. cbn [bind].
  assert (Hloc : forall g, In g (gens ++ supplementary gens) -> 1 < length (g_q g) ->
     (exists m, local_g_matrix logm g data n = Ok m) \/ local_g_matrix logm g data n = Err QiskitError).
  { intros h Hh Hlen. assert (exists g', In g' gens /\ g_q g' = g_q h) as (g' & Hg' & Eq).
    { apply in_app_or in Hh as [Hh|Hh]; [exists h; auto|]. apply supp_In in Hh as [Hh _]. exact Hh. }
    assert (exists i m, g_q h = [i; m]) as (i & m & Eh).
    { rewrite <- Eq. destruct g' as [b a q]. apply Hin in Hg' as [(i & Hi & -> & _)|[(i & m & Hi & -> & _)|(i & m & Hi & Hm & Hij & -> & _)]]; cbn in *; [rewrite <- Eq in Hlen; cbn in Hlen; lia | eauto | eauto]. }
    unfold local_g_matrix. rewrite Eh. destruct (assignment_local_lemma data n [i; m]) as [[-> _]|(A & -> & _)]; cbn [bind snd]; [right; reflexivity|].
    destruct (logm A); [left; eexists; reflexivity | right; reflexivity]. }
  assert (Hb : local_g_matrix logm g data n = Err QiskitError).
  { unfold local_g_matrix. rewrite Hq. destruct (assignment_local_lemma data n [j; k]) as [[-> _]|(A & EA & _)]; cbn [bind snd]; [reflexivity|]. rewrite EA. cbn [bind snd]. rewrite (Hbad _ _ EA). reflexivity. }
  assert (Hf : forall gs acc, (forall h, In h gs -> 1 < length (g_q h) -> (exists m, local_g_matrix logm h data n = Ok m) \/ local_g_matrix logm h data n = Err QiskitError) ->
     In g gs -> foldM (fun mats g => if 1 <? length (g_q g) then do m <- local_g_matrix logm g data n; Ok (dset mats g m) else Ok mats) gs acc = Err QiskitError).
  { induction gs as [|h gs IH]; intros acc H Hi; [destruct Hi|]. cbn [foldM]. destruct (Nat.ltb_spec 1 (length (g_q h))) as [Hlt|Hle].
    - destruct (H h (or_introl eq_refl) Hlt) as [(m & Em)|Em]; rewrite Em; cbn [bind]; [|reflexivity]. apply IH; [intros; apply H; [right|]; assumption|].
      destruct Hi as [->|Hi]; [congruence | exact Hi].
    - cbn [bind]. apply IH; [intros; apply H; [right|]; assumption|]. destruct Hi as [->|Hi]; [rewrite Hq in Hle; cbn in Hle; lia | exact Hi]. }
  rewrite (Hf _ [] Hloc (in_or_app _ _ _ (or_introl Hg))). reflexivity.
Qed.
End Fit.

(** One qubit: the averages are over no partners, so all rates are undefined. *)
Lemma fit_one logm data : fit_ctmp logm data 1 None = Ok {| ct_n := 1; ct_gens := [] |}.
Proof. reflexivity. Qed.
