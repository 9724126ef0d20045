(** * No overflow of C++ ints *)
From Verif.Model Require Import Base Float32 Partitioning PartitionSchemes IntArith.
From Verif.Spec Require Import Layout.
From Verif.Proofs Require Import Lists FloatProof PartitionProof.
From Coq Require Import Permutation.
Local Open Scope Z_scope.

Definition fits (z : Z) : Prop := - 2 ^ 31 <= z < 2 ^ 31.

Lemma int32_ok z : fits z -> int32 z = Ok z.
Proof.
  intros [H1 H2]. unfold int32. apply Z.leb_le in H1. apply Z.ltb_lt in H2. now rewrite H1, H2.
Qed.
Lemma int32_not z : ~ fits z -> int32 z = Undef.
Proof.
  intros H. unfold int32. destruct (Z.leb_spec (- 2 ^ 31) z); [|reflexivity].
  destruct (Z.ltb_spec z (2 ^ 31)); [|reflexivity]. destruct H. split; assumption.
Qed.

Lemma for_int_ok n body : 0 <= n < 2 ^ 31 -> (forall i, 0 <= i < n -> body i = Ok tt) ->
  for_int n body = Ok tt.
Proof.
  intros Hn Hb. unfold for_int. rewrite int32_ok by (unfold fits; lia). cbn [bind].
  assert (H : forall l, (forall i, In i l -> (i < Z.to_nat n)%nat) ->
    fold_left (fun acc i => _ <- acc ;; _ <- int32 (Z.of_nat i) ;; body (Z.of_nat i)) l (Ok tt) = Ok tt).
  { induction l as [|i l IH]; intros Hl; [reflexivity|]. cbn [fold_left bind].
    assert (i < Z.to_nat n)%nat by (apply Hl; now left).
    rewrite int32_ok by (unfold fits; lia). cbn [bind]. rewrite Hb by lia.
    apply IH. intros j Hj. apply Hl. now right. }
  apply H. intros i Hi. apply in_seq in Hi. lia.
Qed.

Lemma size_int_ok l B : 0 <= pl_size l -> 0 <= pl_num l -> 1 <= B -> pl_samples l B < 2 ^ 31 ->
  GetSubConvolverSizeSamples_int l B = Ok (pl_samples l B).
Proof.
  intros H1 H2 H3 H4. unfold GetSubConvolverSizeSamples_int, pl_samples in *.
  set (x := pl_size l * pl_num l) in *. assert (0 <= x) by (unfold x; nia).
  assert (x <= x * B) by nia.
  rewrite (int32_ok x) by (unfold fits; lia). cbn [bind]. apply int32_ok. unfold fits. lia.
Qed.

Lemma find_nearest_int_ok ir : 0 <= ir <= 2 ^ 24 -> forall rest lower,
  (forall s, In s (lower :: rest) -> 0 <= ps_ir s <= 2 ^ 24) ->
  find_nearest_from_int lower rest ir = Ok (find_nearest_from lower rest ir).
Proof.
  intros Hir. induction rest as [|s t IH]; intros lower Hs; [reflexivity|].
  cbn [find_nearest_from_int find_nearest_from].
  destruct (ir <? ps_ir s).
  - assert (0 <= ps_ir lower <= 2 ^ 24) by (apply Hs; now left).
    assert (0 <= ps_ir s <= 2 ^ 24) by (apply Hs; right; now left).
    change (2 ^ 24) with 16777216 in *.
    repeat (rewrite int32_ok by (unfold fits; change (2 ^ 31) with 2147483648; lia); cbn [bind]). reflexivity.
  - apply IH. intros x Hx. apply Hs. now right.
Qed.

Theorem scheme_int B ir results :
  find_results kGarciaResults B = Some results -> 1 <= ir <= 2 ^ 24 ->
  GetPartitionScheme_int kGarciaResults B ir = GetPartitionScheme kGarciaResults B ir.
Proof.
  intros Hfind Hir. unfold GetPartitionScheme, GetPartitionScheme_int. rewrite Hfind.
  pose proof tables_checked as HT. unfold tables_ok in HT. rewrite forallb_forall in HT.
  specialize (HT _ (find_results_in _ _ _ Hfind)). cbn [fst snd] in HT.
  rewrite !andb_true_iff, !Z.ltb_lt, forallb_forall in HT. destruct HT as [[HB Hne] HT].
  assert (Hall : forall s, In s results -> 0 <= ps_ir s <= 2 ^ 24).
  { intros s Hs. specialize (HT s Hs). unfold scheme_ok in HT. destruct s as [sir slay].
    cbn [ps_ir ps_layout] in *. destruct slay as [|a t]; [discriminate|].
    rewrite !andb_true_iff in HT. destruct HT as [[[[[[H1 H2] H3] H4] H5] H6] H7].
    apply Z.eqb_eq in H1. apply Z.ltb_lt in H2. apply Z.eqb_eq in H4. apply Z.leb_le in H5.
    split; [|exact H5]. rewrite <- H4. cbn [layout_samples].
    assert (0 <= layout_samples 1 t).
    { destruct t as [|b t]; [cbn; lia|].
      destruct (tail_ok_split (pl_num a) [] b t H3) as ((e & He & Eb) & T2 & _ & T4 & _).
      pose proof (Z.pow_pos_nonneg 2 e ltac:(lia) ltac:(lia)). cbn [layout_samples]. nia. }
    rewrite (layout_samples_scale B t). nia. }
  assert (EF : FindNearestPartitionScheme_int results ir = FindNearestPartitionScheme results ir).
  { unfold FindNearestPartitionScheme_int, FindNearestPartitionScheme.
    pose proof (sort_perm results) as HP. destruct (sort_schemes results) as [|s t]; [reflexivity|].
    apply find_nearest_int_ok; [lia|]. intros x Hx. apply Hall. now apply (Permutation_in _ HP). }
  rewrite EF.
  destruct (find_nearest results ir) as (s & E & Hin & Hnear).
  { intros ->. cbn in Hne. lia. }
  rewrite E. cbn [bind]. clear E EF Hne. pose proof (Hall s Hin) as Hsr. specialize (HT s Hin). unfold scheme_ok in HT.
  destruct s as [sir slay]. cbn [ps_ir ps_layout] in *. destruct slay as [|a t]; [discriminate|].
  rewrite !andb_true_iff in HT. destruct HT as [[[[[[H1 H2] H3] H4] H5] H6] H7].
  apply Z.eqb_eq in H1. apply Z.ltb_lt in H2. apply Z.eqb_eq in H4. apply Z.leb_le in H5. apply Z.leb_le in H6.
  rewrite int32_ok by (unfold fits; change (2 ^ 31) with 2147483648; change (2 ^ 24) with 16777216 in *; lia).
  cbn [bind].
  assert (Hn : exists pre z, a :: t = pre ++ [z] /\ last t a = z /\ layout_samples B pre = sir - pl_samples z B /\
               (t = [] -> pre = [] /\ z = a) /\ (t <> [] -> exists pre', pre = a :: pre' /\ t = pre' ++ [z])).
  { destruct t as [|b t].
    - exists [], a. cbn. cbn [layout_samples] in H4. unfold pl_samples. repeat split; auto; [lia|congruence].
    - destruct (last_snoc_app (b :: t) a) as (pre & z & Et & El); [discriminate|].
      exists (a :: pre), z. rewrite Et in *. rewrite El in *. split; auto. split; auto. split.
      { change (a :: pre ++ [z]) with ((a :: pre) ++ [z]) in H4. rewrite layout_samples_app in H4.
        cbn [layout_samples] in *. unfold pl_samples. lia. }
      split; [intros E0; destruct pre; discriminate|]. intros _. eauto. }
  destruct Hn as (pre & z & Epz & El & Hpre & Hone & Hmany).
  assert (Hzpos : 0 < pl_size z /\ 0 < pl_num z).
  { destruct t as [|b t].
    - destruct (Hone eq_refl) as [_ ->]. lia.
    - destruct Hmany as (pre' & -> & Et); [discriminate|]. rewrite Et in H3.
      destruct (tail_ok_split (pl_num a) pre' z [] H3) as ((e & He & ->) & T2 & _).
      pose proof (Z.pow_pos_nonneg 2 e ltac:(lia) ltac:(lia)). lia. }
  destruct Hzpos as [Hzs Hzn].
  assert (Hpre0 : 0 <= layout_samples B pre).
  { destruct t as [|b t].
    - destruct (Hone eq_refl) as [-> _]. cbn. lia.
    - destruct Hmany as (pre' & -> & Et); [discriminate|]. rewrite Et in H3.
      destruct (tail_ok_split (pl_num a) pre' z [] H3) as (_ & _ & _ & _ & T5).
      cbn [layout_samples]. rewrite (layout_samples_scale B pre'). nia. }
  assert (Ha24 : pl_num a <= 2 ^ 24).
  { destruct t as [|b t].
    - cbn [layout_samples] in H4. rewrite H1 in H4. nia.
    - destruct Hmany as (pre' & -> & Et); [discriminate|]. rewrite Et in H3.
      destruct (tail_ok_split (pl_num a) pre' z [] H3) as (_ & _ & _ & _ & T5).
      cbn [layout_samples] in Hpre, Hpre0. rewrite (layout_samples_scale B pre') in Hpre, Hpre0. unfold pl_samples in Hpre. rewrite H1 in *.
      assert (0 <= pl_size z * pl_num z * B) by (apply Z.mul_nonneg_nonneg; nia).
      assert (0 <= layout_samples 1 pre' * B) by nia. assert (pl_num a <= pl_num a * B) by nia. lia. }
  set (P := B * pl_size z). assert (HP : 0 < P) by (unfold P; nia).
  assert (HP24 : P <= 2 ^ 24) by (unfold P; rewrite <- El; exact H6).
  assert (Hlasts : pl_samples z B = P * pl_num z) by (unfold pl_samples, P; lia).
  assert (Hzb : pl_num z <= P * pl_num z) by nia.
  assert (HL24 : pl_samples z B <= 2 ^ 24) by lia.
  assert (Hrem : sir - ir < pl_samples z B).
  { destruct t as [|b t].
    - destruct (Hone eq_refl) as [-> ->]. cbn [layout_samples] in Hpre. lia.
    - apply existsb_exists in H7. destruct H7 as (L & HL & HE).
      cbn beta in HE. rewrite El in HE. rewrite !andb_true_iff, Z.ltb_lt, !Z.leb_le in HE.
      destruct HE as [[HE1 HE2] HE3]. destruct (Hnear L HL) as [N1 N2]. unfold dist in N1, N2. cbn [ps_ir] in N1, N2.
      lia. }
  assert (Hbig : forall k, - 2 ^ 26 <= k <= 2 ^ 26 -> int32 k = Ok k).
  { intros k Hk. apply int32_ok. unfold fits. change (2 ^ 31) with 2147483648. change (2 ^ 26) with 67108864 in Hk. lia. }
  change (2 ^ 24) with 16777216 in *. change (2 ^ 26) with 67108864 in *.
  (* both branches agree *)
  assert (HR : exists k, (if 0 <? ir - sir then ExtendSchemeToFitIR_int (a :: t) (ir - sir) B
                          else ReduceSchemeToFitIR_int (a :: t) (ir - sir) B)
                         = Ok (pre ++ [{| pl_size := pl_size z; pl_num := pl_num z + k |}]) /\
                         (if 0 <? ir - sir then ExtendSchemeToFitIR (a :: t) (ir - sir) B
                          else ReduceSchemeToFitIR (a :: t) (ir - sir) B)
                         = Ok (pre ++ [{| pl_size := pl_size z; pl_num := pl_num z + k |}]) /\
                         k <= 16777216).
  { rewrite Epz. destruct (Z.ltb_spec 0 (ir - sir)) as [Hpos|Hneg].
    - unfold ExtendSchemeToFitIR, ExtendSchemeToFitIR_int. rewrite back_snoc. cbn [bind]. fold P.
      rewrite (Hbig P) by lia. cbn [bind].
      rewrite assert_true by now apply Z.ltb_lt. cbn [bind].
      rewrite f_div_ceil by lia. rewrite !set_back_snoc.
      pose proof (zceil_spec (ir - sir) P HP) as Hc.
      assert (0 < zceil (ir - sir) P <= 16777216) by nia.
      rewrite (Hbig (zceil _ _)) by lia. cbn [bind]. rewrite Hbig by lia. cbn [bind].
      rewrite set_back_snoc.
      eexists. split; [reflexivity|]. split; [reflexivity|]. lia.
    - unfold ReduceSchemeToFitIR, ReduceSchemeToFitIR_int. cbn [reduce_scheme reduce_scheme_int].
      rewrite back_snoc. rewrite Z.abs_neq by lia. rewrite (Hbig (- (ir - sir))) by lia. cbn [bind].
      rewrite size_int_ok by (try lia; change (2 ^ 31) with 2147483648; lia). cbn [bind].
      destruct (Z.ltb_spec (- (ir - sir)) (pl_samples z B)); [|lia].
      fold P. rewrite (Hbig P) by lia. cbn [bind]. rewrite assert_true by now apply Z.ltb_lt. cbn [bind].
      rewrite f_div_floor by lia. rewrite !set_back_snoc.
      pose proof (Z.div_mod (- (ir - sir)) P ltac:(lia)) as Hd.
      pose proof (Z.mod_pos_bound (- (ir - sir)) P HP) as Hm.
      set (q := (- (ir - sir)) / P) in *. assert (0 <= q <= 16777216) by nia.
      rewrite (Hbig q) by lia. cbn [bind]. rewrite Hbig by lia. cbn [bind]. rewrite set_back_snoc.
      exists (- q). split; [do 4 f_equal; lia|]. split; [do 4 f_equal; lia|lia]. }
  destruct HR as (k & E1 & E2 & Hk). rewrite E1, E2. cbn [bind].
  destruct pre as [|p pre].
  - cbn [app bump_front bump_front_int pl_num pl_size].
    assert (-16777216 <= k).
    { destruct (Z.ltb_spec 0 (ir - sir)).
      - unfold ExtendSchemeToFitIR in E2. rewrite Epz in E2. cbn [app] in E2. cbn [back rev app bind] in E2.
        fold P in E2. rewrite assert_true in E2 by now apply Z.ltb_lt. cbn [bind] in E2. rewrite f_div_ceil in E2 by lia.
        injection E2 as E2. pose proof (zceil_spec (ir - sir) P HP). nia.
      - unfold ReduceSchemeToFitIR in E2. rewrite Epz in E2. cbn [app length reduce_scheme] in E2.
        cbn [back rev app bind] in E2. rewrite Z.abs_neq in E2 by lia.
        destruct (Z.ltb_spec (- (ir - sir)) (pl_samples z B)); [|lia]. fold P in E2.
        rewrite assert_true in E2 by now apply Z.ltb_lt. cbn [bind] in E2. rewrite f_div_floor in E2 by lia.
        injection E2 as E2.
        pose proof (Z.div_mod (- (ir - sir)) P ltac:(lia)) as Hd.
        pose proof (Z.mod_pos_bound (- (ir - sir)) P HP) as Hm. nia. }
    rewrite Hbig by lia. reflexivity.
  - destruct t as [|b t].
    + destruct (Hone eq_refl) as [E0 _]. discriminate.
    + destruct Hmany as (pre' & Ep & _); [discriminate|]. injection Ep as -> ->.
      cbn [app bump_front bump_front_int pl_num pl_size]. rewrite Hbig by lia. reflexivity.
Qed.

(** ** the constructors *)
Ltac fit := apply int32_ok; unfold fits; change (2 ^ 31) with 2147483648;
            change (2 ^ 24) with 16777216 in *; change (2 ^ 30) with 1073741824 in *;
            change (2 ^ 29) with 536870912 in *.
Ltac fits_by tac := rewrite int32_ok by (unfold fits; change (2 ^ 31) with 2147483648; tac); cbn [bind].

Lemma zceil_bound n P : 0 <= n -> 0 < P -> 0 <= zceil n P <= n.
Proof. intros Hn HP. pose proof (zceil_spec n P HP). nia. Qed.

Lemma partition_ints_ok P n : 0 < P -> 0 <= n <= 16777216 -> partition_ints P n = Ok (zceil n P).
Proof.
  intros HP Hn. unfold partition_ints, GetNumPartitionsRequiredForSegment_int.
  rewrite num_partitions_exact by (change (2 ^ 24) with 16777216; lia). cbn [bind].
  pose proof (zceil_bound n P ltac:(lia) HP). pose proof (zceil_spec n P HP) as Hc.
  fits_by lia.
  rewrite for_int_ok; [reflexivity|change (2 ^ 31) with 2147483648; lia|].
  intros i Hi. assert (0 <= i * P <= n) by nia. fits_by lia. now fits_by lia.
Qed.

Lemma upc_make_int_ok B n : 0 < B <= 4096 -> 0 <= n <= 16777216 ->
  upc_make_int B n = Ok (zceil n B).
Proof.
  intros HB Hn. unfold upc_make_int. fits_by lia. fits_by lia. now apply partition_ints_ok.
Qed.

Lemma td_make_int_ok B psb : 0 < B -> 0 < psb -> psb * B <= 16777216 ->
  td_make_int B psb = Ok (2 * (psb * B)).
Proof.
  intros HB Hp H. unfold td_make_int. rewrite Z.mod_small by (change (2 ^ 32) with 4294967296; nia).
  fits_by nia. rewrite int32_ok; [f_equal; lia|]. unfold fits. change (2 ^ 31) with 2147483648. nia.
Qed.

Lemma group_ints_ok B e f co : 0 < B -> 1 <= e <= 24 -> 0 <= f <= 29 -> 0 <= co -> co + 2 ^ f <= 536870912 ->
  2 ^ e * B <= 16777216 -> group_ints B (2 ^ e) co (2 ^ f) = Ok tt.
Proof.
  intros HB He Hf Hco Hcf HeB. unfold group_ints.
  assert (He2 : 2 ^ e / 2 = 2 ^ (e - 1)).
  { replace e with (Z.succ (e - 1)) at 1 by lia. rewrite Z.pow_succ_r by lia.
    rewrite Z.mul_comm. apply Z.div_mul. lia. }
  rewrite He2, !Z.log2_pow2 by lia.
  set (nd := Z.max 0 (e - 1 - f)). assert (Hnd : 0 <= nd <= 23) by (unfold nd; lia).
  fits_by lia.
  assert (H1 : 2 ^ (nd + 1) <= 2 ^ 24) by (apply Z.pow_le_mono_r; lia).
  assert (H2 : 0 < 2 ^ (nd + 1)) by (apply Z.pow_pos_nonneg; lia).
  assert (H3 : 2 ^ f * 2 ^ (nd + 1) <= 2 ^ 30).
  { rewrite <- Z.pow_add_r by lia. apply Z.pow_le_mono_r; unfold nd; lia. }
  assert (H4 : 0 < 2 ^ f) by (apply Z.pow_pos_nonneg; lia).
  assert (H5 : 0 < 2 ^ e) by (apply Z.pow_pos_nonneg; lia).
  change (2 ^ 24) with 16777216 in *. change (2 ^ 30) with 1073741824 in *.
  fits_by lia.
  apply for_int_ok; [change (2 ^ 31) with 2147483648; lia|].
  intros i Hi. fits_by nia. fits_by lia. rewrite td_make_int_ok by lia. reflexivity.
Qed.

Lemma groups_ints_ok B e : 0 < B -> 1 <= e <= 24 -> 2 ^ e * B <= 16777216 ->
  forall fuel co n, 0 <= co -> 0 <= n -> co + n <= 536870912 -> n <= Z.of_nat fuel ->
  groups_ints fuel B (2 ^ e) co n = Ok tt.
Proof.
  intros HB He HeB. induction fuel as [|fuel IH]; intros co n Hco Hn Hc Hf;
    cbn [groups_ints]; (destruct (Z.ltb_spec 0 n) as [Hp|]; [|reflexivity]); [lia|].
  pose proof (Z.log2_spec n Hp) as [L1 L2]. pose proof (Z.log2_nonneg n).
  assert (L3 : 0 < 2 ^ Z.log2 n) by (apply Z.pow_pos_nonneg; lia).
  assert (Z.log2 n <= 29).
  { change 29 with (Z.log2 536870912). apply Z.log2_le_mono. lia. }
  fits_by lia. fits_by lia. rewrite group_ints_ok by lia. cbn [bind]. fits_by lia.
  apply IH; lia.
Qed.

Lemma multi_make_int_ok C B e n : 0 <= C <= 536870912 -> 0 < B -> 1 <= e <= 24 -> 2 ^ e * B <= 16777216 ->
  0 <= n <= 16777216 -> multi_make_int C B (2 ^ e) n = Ok (zceil n (2 ^ e * B)).
Proof.
  intros HC HB He HeB Hn. unfold multi_make_int.
  assert (H5 : 0 < 2 ^ e) by (apply Z.pow_pos_nonneg; lia).
  fits_by nia. fits_by nia. rewrite partition_ints_ok by nia. cbn [bind].
  rewrite groups_ints_ok by lia. reflexivity.
Qed.

(** what the sub-convolvers of a layout need, at [offset] *)
Fixpoint subs_fit (B ir offset : Z) (l : list layout) : Prop :=
  match l with
  | [] => True
  | a :: t => (exists e, 1 <= e <= 24 /\ pl_size a = 2 ^ e) /\ 0 < pl_num a /\
              pl_size a * B <= 16777216 /\ offset < ir /\ offset + pl_samples a B <= 67108864 /\
              subs_fit B ir (offset + pl_samples a B) t
  end.
Fixpoint subs_spec (B ir offset : Z) (l : list layout) : list (Z * Z) :=
  match l with
  | [] => []
  | a :: t => (zceil (Z.min (pl_samples a B) (ir - offset)) (pl_size a * B),
               offset + B - 2 * (pl_size a * B)) :: subs_spec B ir (offset + pl_samples a B) t
  end.

Lemma nupc_subs_int_ok C B ir : 0 <= C <= 536870912 -> 0 < B <= 4096 -> ir <= 16777216 -> forall l offset,
  0 <= offset -> subs_fit B ir offset l -> nupc_subs_int C B ir offset l = Ok (subs_spec B ir offset l).
Proof.
  intros HC HB Hir. induction l as [|a t IH]; intros offset Ho Hfit; [reflexivity|].
  cbn [subs_fit subs_spec] in *. cbn [nupc_subs_int].
  destruct Hfit as ((e & He & Ee) & Hn & HsB & Hof & Hos & Hr).
  assert (H5 : 0 < 2 ^ e) by (apply Z.pow_pos_nonneg; lia).
  assert (Hs0 : 0 < pl_samples a B) by (unfold pl_samples; rewrite Ee; nia).
  rewrite size_int_ok by (try lia; change (2 ^ 31) with 2147483648; lia). cbn [bind].
  fits_by lia. fits_by nia. rewrite Ee in *. rewrite multi_make_int_ok by lia. cbn [bind].
  fits_by nia. fits_by nia. fits_by nia. fits_by lia. rewrite IH by (auto; lia). cbn [bind].
  do 3 f_equal. lia.
Qed.

(** the layouts returned fit *)
Lemma good_fit B ir : 0 < B <= 4096 -> 1 <= ir <= 16777216 -> forall t a,
  pl_size a = 1 -> 2 <= pl_num a ->
  (forall pre b post, t = pre ++ b :: post ->
       pow2_blocks (pl_size b) /\ 0 < pl_num b /\
       layout_samples B (a :: pre) = 2 * pl_size b * B + B /\
       layout_samples B (a :: pre) < ir) ->
  layout_samples B (a :: t) <= 67108864 ->
  forall done rest, t = done ++ rest -> subs_fit B ir (layout_samples B (a :: done)) rest.
Proof.
  intros HB Hir t a Ha Hn Hall Htot done rest. revert done.
  induction rest as [|b rest IH]; intros done E; [exact I|]. cbn [subs_fit].
  destruct (Hall done b rest E) as ((e & He & Eb) & P2 & P3 & P4).
  assert (H5 : 0 < 2 ^ e) by (apply Z.pow_pos_nonneg; lia).
  assert (HsB : pl_size b * B <= 16777216) by nia.
  assert (Hnext : layout_samples B (a :: done) + pl_samples b B = layout_samples B (a :: done ++ [b])).
  { cbn [layout_samples]. rewrite layout_samples_app. cbn [layout_samples]. unfold pl_samples. lia. }
  assert (Hrest : 0 <= layout_samples B rest).
  { assert (G : forall c, In c rest -> 0 < pl_size c /\ 0 < pl_num c).
    { intros c Hc. apply in_split in Hc as (x & y & ->).
      destruct (Hall (done ++ b :: x) c y) as ((e' & He' & Ec) & Q2 & _).
      { rewrite E, <- app_assoc. reflexivity. }
      split; auto. rewrite Ec. apply Z.pow_pos_nonneg; lia. }
    clear - G HB. induction rest as [|c rest IH]; cbn [layout_samples]; [lia|].
    destruct (G c) as [G1 G2]; [now left|]. specialize (IH (fun d Hd => G d (or_intror Hd))).
    assert (0 < pl_size c * pl_num c) by nia. nia. }
  split.
  { exists e. split; [|exact Eb]. split; [lia|]. destruct (Z_le_gt_dec e 24) as [|Hgt]; auto. exfalso.
    assert (2 ^ 25 <= 2 ^ e) by (apply Z.pow_le_mono_r; lia). change (2 ^ 25) with 33554432 in *. nia. }
  split; [assumption|]. split; [assumption|]. split; [assumption|]. split.
  - rewrite Hnext. rewrite E in Htot. cbn [layout_samples] in *. rewrite layout_samples_app in *.
    cbn [layout_samples] in *. lia.
  - rewrite Hnext. apply (IH (done ++ [b])). now rewrite <- app_assoc.
Qed.

Lemma supported_block B results : find_results kGarciaResults B = Some results -> 0 < B <= 4096.
Proof.
  intros H. apply find_results_in in H.
  assert (G : forallb (fun e => (0 <? fst e) && (fst e <=? 4096)) kGarciaResults = true) by (vm_compute; reflexivity).
  rewrite forallb_forall in G. specialize (G _ H). cbn [fst] in G.
  rewrite andb_true_iff, Z.ltb_lt, Z.leb_le in G. exact G.
Qed.

(** the integers of the constructor, in terms of the layout *)
Theorem nupc_make_int_ok C B ir results : 0 <= C <= 536870912 ->
  find_results kGarciaResults B = Some results -> 1 <= ir <= 2 ^ 24 ->
  exists a t, GetPartitionScheme kGarciaResults B ir = Ok (a :: t) /\ good_layout B ir (a :: t) /\
    let offset := Z.min (pl_samples a B) ir in
    nupc_make_int C B ir = Ok (zceil offset B, subs_spec B ir offset t).
Proof.
  intros HC Hfind Hir. pose proof (supported_block B results Hfind) as HB.
  destruct (scheme_good B ir results Hfind Hir) as (l & E & G). pose proof G as (a & t & -> & G1 & G2 & G3 & G4).
  exists a, t. split; [exact E|]. split; [exact G|]. cbv zeta. unfold nupc_make_int.
  rewrite (scheme_int B ir results Hfind Hir), E. cbn [bind]. change (2 ^ 24) with 16777216 in *.
  assert (Hlast : pl_size (last t a) * B <= 8388608).
  { destruct (list_eq_dec (fun x y : layout => ltac:(decide equality; apply Z.eq_dec)) t []) as [->|Hne].
    - cbn [last]. rewrite G1. lia.
    - destruct (last_snoc_app t a Hne) as (pre & b & -> & ->).
      destruct (G3 pre b [] eq_refl) as (_ & _ & Q3 & Q4). lia. }
  assert (Hrest : 0 <= layout_samples B t).
  { assert (K : forall c, In c t -> 0 < pl_size c /\ 0 < pl_num c).
    { intros c Hc. apply in_split in Hc as (x & y & ->).
      destruct (G3 x c y eq_refl) as ((e' & He' & Ec) & Q2 & _).
      split; auto. rewrite Ec. apply Z.pow_pos_nonneg; lia. }
    clear - K HB. induction t as [|c rest IH]; cbn [layout_samples]; [lia|].
    destruct (K c) as [K1 K2]; [now left|]. specialize (IH (fun d Hd => K d (or_intror Hd))).
    assert (0 < pl_size c * pl_num c) by nia. nia. }
  assert (Ha : pl_samples a B <= 67108864).
  { cbn [layout_samples] in G4. unfold pl_samples. lia. }
  rewrite size_int_ok by (try lia; change (2 ^ 31) with 2147483648; lia). cbn [bind].
  assert (0 < pl_samples a B) by (unfold pl_samples; rewrite G1; nia).
  rewrite upc_make_int_ok by lia. cbn [bind].
  rewrite nupc_subs_int_ok; auto; try lia.
  destruct t as [|b t]; [exact I|].
  destruct (G3 [] b t eq_refl) as (_ & _ & _ & Q4). cbn [layout_samples] in Q4.
  rewrite Z.min_l by (unfold pl_samples; lia).
  replace (pl_samples a B) with (layout_samples B [a]) by (cbn [layout_samples]; unfold pl_samples; lia).
  apply (good_fit B ir HB Hir (b :: t) a G1 G2 G3); [lia|reflexivity].
Qed.
