(** * C74: the C++ ints do not overflow *)
From Verif.Model Require Import Base Arith ArithMod Juce ComplexBuffer Float32 Partitioning PartitionSchemes IntArith
     UniformPartitionedConvolver TimeDistributedUPC TimeDistributedUPCMulti TimeDistributedNUPC Convolver.
From Verif.Spec Require Import Layout.
From Verif.Proofs Require Import Lists FloatProof PartitionProof MultiProof IntProof IntLink.
From Verif.Props Require Import PartitionProps.

(** The functions ending in [_int] fail as soon as one [int] operation leaves [-2^31, 2^31); they
    return here, and return what the convolver was built with: the number of partitions of
    the uniform convolver, and those of the others with their delays. *)
Theorem C74_no_int_overflow : forall (A : arith) (R : rfft A) (ir : audio A) maximum_block_size spec c,
  conv_make R ir maximum_block_size spec = Ok c ->
  (requested (Z.of_nat maximum_block_size) (cs_internal spec) <= 2 ^ 30)%Z ->
  (Z.of_nat (num_samples ir) <= 2 ^ 24)%Z -> (Z.of_nat (length ir) <= 2 ^ 29)%Z ->
  nupc_make_int (Z.of_nat (length ir)) (Z.of_nat (c_block c)) (Z.of_nat (num_samples ir))
  = Ok (Z.of_nat (length (u_filters (n_upc (c_nupc c)))),
        combine (map (fun m => Z.of_nat (length (m_filters m))) (n_tdupcs (c_nupc c)))
                (map Z.of_nat (n_delays (c_nupc c)))).
Proof.
  intros A R ir M spec c Hc Hreq Hm HC. unfold conv_make in Hc.
  destruct (C18_block_size (Z.of_nat M) (cs_internal spec) Hreq) as (b & e & Eb & Ebe & He & [results Hr] & _).
  rewrite Eb in Hc. cbn [bind] in Hc. apply bind_inv in Hc as (n & En & Hc). injection Hc as <-.
  cbn [c_block c_nupc]. pose proof (supported_block b results Hr) as HB.
  set (B := Z.to_nat b) in *. assert (EB : Z.of_nat B = b) by (unfold B; lia). rewrite <- EB in Hr.
  unfold nupc_make in En. destruct (Nat.ltb_spec 0 (num_samples ir)) as [Hpos|]; [|discriminate]. cbn [assert bind] in En.
  destruct (nupc_make_int_ok (Z.of_nat (length ir)) (Z.of_nat B) (Z.of_nat (num_samples ir)) results) as (a & t & Es & G & Ei).
  { change (2 ^ 29)%Z with 536870912%Z in HC. lia. } { exact Hr. } { lia. }
  change (2 ^ 24)%Z with 16777216%Z in *.
  rewrite Ei. rewrite Es in En. cbn [bind] in En. destruct G as (a' & t' & E0 & G1 & G2 & G3 & G4). injection E0 as <- <-.
  assert (Hpa : (0 < pl_samples a (Z.of_nat B))%Z) by (unfold pl_samples; rewrite G1; nia).
  unfold nat_of in En at 1. destruct (Z.ltb_spec (pl_samples a (Z.of_nat B)) 0); [lia|]. cbn [bind] in En.
  set (us := Z.to_nat (pl_samples a (Z.of_nat B))) in *. set (off := Nat.min us (num_samples ir)) in *.
  assert (Eo : Z.of_nat off = Z.min (pl_samples a (Z.of_nat B)) (Z.of_nat (num_samples ir))).
  { unfold off. rewrite Nat2Z.inj_min. f_equal. unfold us. lia. }
  rewrite <- Eo.
  apply bind_inv in En as (sg & Esg & En). apply bind_inv in En as (u & Eu & En).
  apply bind_inv in En as ([subs delays] & Esub & En). injection En as <-.
  unfold nupc_reset. cbn [n_upc n_tdupcs n_delays]. apply blk_sub_samples in Esg.
  assert (Hu : Z.of_nat (length (u_filters (upc_reset u))) = zceil (Z.of_nat off) (Z.of_nat B)).
  { cbn [upc_reset u_filters]. rewrite (upc_make_filters R _ _ _ _ Eu) by lia. now rewrite Esg. }
  rewrite Hu. do 2 f_equal.
  assert (Emap : map (fun m => Z.of_nat (length (m_filters m))) (map multi_reset subs)
                 = map (fun m : multi A => Z.of_nat (length (m_filters m))) subs).
  { rewrite map_map. apply map_ext. reflexivity. }
  rewrite Emap. symmetry.
  refine (proj1 (nupc_subs_link (length ir) B ir ltac:(lia) Hm t off subs delays Esub _)).
  destruct t as [|b0 t]; [exact I|].
  destruct (G3 [] b0 t eq_refl) as (_ & _ & _ & Q4). cbn [layout_samples] in Q4.
  assert (Eo2 : Z.of_nat off = layout_samples (Z.of_nat B) [a]).
  { rewrite Eo, Z.min_l by (unfold pl_samples; lia). cbn [layout_samples]. unfold pl_samples. lia. }
  rewrite Eo2. refine (good_fit (Z.of_nat B) (Z.of_nat (num_samples ir)) ltac:(lia) ltac:(lia) (b0 :: t) a G1 G2 G3 _ [] (b0 :: t) eq_refl).
  assert (Hne : b0 :: t <> []) by discriminate.
  destruct (last_snoc_app (b0 :: t) a Hne) as (pre & z & Ez & El). rewrite El in G4.
  destruct (G3 pre z [] Ez) as (_ & _ & Q3 & Q5). lia.
Qed.
Print Assumptions C74_no_int_overflow.

(** Processing: every time-distributed convolver, at every phase. *)
Theorem C74_no_int_overflow_in_process : forall (A : arith) (R : rfft A) (ir : audio A) maximum_block_size spec c,
  conv_make R ir maximum_block_size spec = Ok c ->
  (requested (Z.of_nat maximum_block_size) (cs_internal spec) <= 2 ^ 30)%Z ->
  (Z.of_nat (num_samples ir) <= 2 ^ 24)%Z -> (Z.of_nat (length ir) <= 2 ^ 29)%Z ->
  forall m t phase, In m (n_tdupcs (c_nupc c)) -> In t (m_tdupcs m) -> phase < t_num_phases t ->
  t_partition t = c_block c * t_num_phases t /\ t_points t = 2 * t_partition t /\
  td_process_int (Z.of_nat (c_block c)) (Z.of_nat (t_num_phases t)) (Z.of_nat (t_offset t))
                 (Z.of_nat (t_nd t)) (Z.of_nat phase)
  = Ok (Z.of_nat ((phase + 1) mod t_num_phases t)).
Proof.
  intros A R ir M spec c Hc Hreq Hm HC m t0 phase Hin Ht Hph. unfold conv_make in Hc.
  destruct (C18_block_size (Z.of_nat M) (cs_internal spec) Hreq) as (b & e & Eb & Ebe & He & [results Hr] & _).
  rewrite Eb in Hc. cbn [bind] in Hc. apply bind_inv in Hc as (n & En & Hc). injection Hc as <-.
  cbn [c_block c_nupc] in *. pose proof (supported_block b results Hr) as HB.
  set (B := Z.to_nat b) in *. assert (EB : Z.of_nat B = b) by (unfold B; lia). rewrite <- EB in Hr.
  unfold nupc_make in En. destruct (Nat.ltb_spec 0 (num_samples ir)) as [Hpos|]; [|discriminate]. cbn [assert bind] in En.
  destruct (nupc_make_int_ok (Z.of_nat (length ir)) (Z.of_nat B) (Z.of_nat (num_samples ir)) results) as (a & t & Es & G & _).
  { change (2 ^ 29)%Z with 536870912%Z in HC. lia. } { exact Hr. } { lia. }
  change (2 ^ 24)%Z with 16777216%Z in *.
  rewrite Es in En. cbn [bind] in En. destruct G as (a' & t' & E0 & G1 & G2 & G3 & G4). injection E0 as <- <-.
  assert (Hpa : (0 < pl_samples a (Z.of_nat B))%Z) by (unfold pl_samples; rewrite G1; nia).
  unfold nat_of in En at 1. destruct (Z.ltb_spec (pl_samples a (Z.of_nat B)) 0); [lia|]. cbn [bind] in En.
  set (us := Z.to_nat (pl_samples a (Z.of_nat B))) in *. set (off := Nat.min us (num_samples ir)) in *.
  assert (Eo : Z.of_nat off = Z.min (pl_samples a (Z.of_nat B)) (Z.of_nat (num_samples ir))).
  { unfold off. rewrite Nat2Z.inj_min. f_equal. unfold us. lia. }
  apply bind_inv in En as (sg & Esg & En). apply bind_inv in En as (u & Eu & En).
  apply bind_inv in En as ([subs delays] & Esub & En). injection En as <-.
  unfold nupc_reset in Hin. cbn [n_upc n_tdupcs n_delays] in Hin. apply in_map_iff in Hin as (m0 & <- & Hin).
  destruct t as [|b0 t]; [cbn [nupc_subs] in Esub; injection Esub as <- <-; destruct Hin|].
  destruct (G3 [] b0 t eq_refl) as (_ & _ & _ & Q4). cbn [layout_samples] in Q4.
  assert (Eo2 : Z.of_nat off = layout_samples (Z.of_nat B) [a]).
  { rewrite Eo, Z.min_l by (unfold pl_samples; lia). cbn [layout_samples]. unfold pl_samples. lia. }
  assert (Hfit : subs_fit (Z.of_nat B) (Z.of_nat (num_samples ir)) (Z.of_nat off) (b0 :: t)).
  { rewrite Eo2. refine (good_fit (Z.of_nat B) (Z.of_nat (num_samples ir)) ltac:(lia) ltac:(lia) (b0 :: t) a G1 G2 G3 _ [] (b0 :: t) eq_refl).
    assert (Hne : b0 :: t <> []) by discriminate.
    destruct (last_snoc_app (b0 :: t) a Hne) as (pre & z & Ez & El). rewrite El in G4.
    destruct (G3 pre z [] Ez) as (_ & _ & Q3 & Q5). lia. }
  destruct (nupc_subs_link (length ir) B ir ltac:(lia) Hm (b0 :: t) off subs delays Esub Hfit) as (_ & (L1 & _) & Hj).
  apply In_nth_error in Hin as (j & Ej).
  assert (Hjl : j < length (b0 :: t)). { rewrite <- L1. apply nth_error_Some. now rewrite Ej. }
  destruct (Hj j Hjl) as (seg & psb & mm & J1 & J2 & J3 & J4). rewrite Ej in J1. injection J1 as <-.
  set (z0 := {| pl_size := 0; pl_num := 0 |}) in *.
  destruct (nth_split (b0 :: t) z0 Hjl) as (pre & post & Ez & _).
  destruct (G3 pre _ post Ez) as ((s & Hs1 & Es2) & _ & Q3 & Q5).
  set (sn := Z.to_nat s). assert (Esn : psb = 2 ^ sn).
  { apply Nat2Z.inj. rewrite J4, Es2, Nat2Z.inj_pow. unfold sn. rewrite Z2Nat.id by lia. reflexivity. }
  assert (H5 : (0 < 2 ^ s)%Z) by (apply Z.pow_pos_nonneg; lia).
  rewrite Es2 in Q3.
  unfold multi_reset in Ht. cbn [m_tdupcs] in Ht. apply in_map_iff in Ht as (t1 & <- & Ht).
  rewrite Esn in J2. destruct (multi_make_params (length ir) B sn seg m0 ltac:(unfold sn; lia) J2 (proj1 J3) t1 Ht) as (P1 & P2 & P3 & P4 & P5 & _).
  cbn [td_reset td_with t_partition t_points t_num_phases t_offset t_nd] in *.
  rewrite P1 in *. split; [exact P2|]. split; [lia|].
  rewrite Nat2Z.inj_mod. rewrite Nat2Z.inj_add.
  assert (Z1 : Z.of_nat (2 ^ sn) = (2 ^ s)%Z).
  { rewrite Nat2Z.inj_pow. unfold sn. rewrite Z2Nat.id by lia. reflexivity. }
  assert (Z2 : Z.of_nat (2 ^ t_nd t1) = (2 ^ Z.of_nat (t_nd t1))%Z) by (rewrite Nat2Z.inj_pow; reflexivity).
  rewrite Z1. apply td_process_int_ok; try lia.
  - split; [lia|]. destruct (Z_le_gt_dec s 24) as [|Hgt]; auto. exfalso.
    assert (2 ^ 25 <= 2 ^ s)%Z by (apply Z.pow_le_mono_r; lia). change (2 ^ 25)%Z with 33554432%Z in *. nia.
Qed.
Print Assumptions C74_no_int_overflow_in_process.

(** What the hypotheses allow: a response of 20000 samples in blocks of 64, and the longest one. *)
Example C74_example :
  nupc_make_int 2 64 20000 = Ok (9%Z, [(6, 128); (18, 128)]%Z) /\
  nupc_make_int 2 2048 (2 ^ 24) = Ok (17%Z, [(14, 4096); (126, 4096)]%Z) /\
  td_process_int 64 16 4 2 15 = Ok 0%Z.
Proof. vm_compute. auto. Qed.
(** The bound matters: near 2^31 samples the segments together are longer than an int can say, and
    TimeDistributedNUPC.cpp:37 computes that sum. *)
Example C74_not_beyond :
  let l := [ {| pl_size := 1; pl_num := 17 |}; {| pl_size := 8; pl_num := 14 |};
             {| pl_size := 64; pl_num := 16382 |} ] in
  GetPartitionScheme_int kGarciaResults 2048 (2 ^ 31 - 1) = Ok l /\ int32 (layout_samples 2048 l) = Undef.
Proof. vm_compute. auto. Qed.
