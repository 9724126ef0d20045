(** * C14-C16, C18, C28: partition schemes, block sizes, empty responses *)
From Verif.Model Require Import Base Arith ArithReal ArithMod Juce Float32 Partitioning PartitionSchemes
     UniformPartitionedConvolver TimeDistributedUPCMulti TimeDistributedNUPC Convolver.
From Verif.Spec Require Import Layout Signal RealFFT.
From Verif.Proofs Require Import Lists FloatProof PartitionProof.
Local Open Scope Z_scope.

(** there is a table of schemes for blocks of [B] samples *)
Definition supported (B : Z) : Prop := exists results, find_results kGarciaResults B = Some results.

(** C14. *)
Theorem C14_covers : forall B ir, supported B -> 1 <= ir <= 2 ^ 24 ->
  exists front last_size l, GetPartitionScheme kGarciaResults B ir = Ok (front :: l) /\
    last_size = pl_size (last l front) /\
    ir <= layout_samples B (front :: l) < ir + B + last_size * B.
Proof.
  intros B ir [results Hr] Hir. destruct (scheme_good B ir results Hr Hir) as (l & E & a & t & -> & H1 & H2 & H3 & H4).
  exists a, (pl_size (last t a)), t. auto.
Qed.
Example C14_example : supported 256 /\ supported 2048 /\
  GetPartitionScheme kGarciaResults 64 20000
  = Ok [ {| pl_size := 1; pl_num := 9 |}; {| pl_size := 4; pl_num := 6 |}; {| pl_size := 16; pl_num := 18 |} ].
Proof. split; [|split]; [eexists; vm_compute; reflexivity..|vm_compute; reflexivity]. Qed.

(** C15.  Segment [b] starts after the samples of the front and of [pre].  Its result, read
    through the ring, needs a delay of (start - 2 partitions + 1 block), which is two blocks for
    every segment. *)
Theorem C15_clearance : forall B ir front l,
  supported B -> 1 <= ir <= 2 ^ 24 -> GetPartitionScheme kGarciaResults B ir = Ok (front :: l) ->
  forall pre b post, l = pre ++ b :: post ->
  let start := layout_samples B (front :: pre) in
  pow2_blocks (pl_size b) /\ 0 < pl_num b /\
  start >= 2 * (pl_size b * B) + B /\ start < ir /\
  start + B - 2 * (pl_size b * B) = 2 * B.
Proof.
  intros B ir front l [results Hr] Hir E pre b post ->.
  destruct (scheme_good B ir results Hr Hir) as (l' & E' & a & t & -> & H1 & H2 & H3 & H4).
  rewrite E' in E. injection E as -> ->. destruct (H3 pre b post eq_refl) as (P1 & P2 & P3 & P4).
  cbv zeta. rewrite P3 in *. repeat split; auto; lia.
Qed.
Example C15_example :
  GetPartitionScheme kGarciaResults 64 20000
  = Ok ({| pl_size := 1; pl_num := 9 |} ::
        ([{| pl_size := 4; pl_num := 6 |}] ++ {| pl_size := 16; pl_num := 18 |} :: [])) /\
  layout_samples 64 [{| pl_size := 1; pl_num := 9 |}; {| pl_size := 4; pl_num := 6 |}] = 2 * (16 * 64) + 64.
Proof. vm_compute. auto. Qed.

(** C16. *)
Theorem C16_nearest : forall B results, find_results kGarciaResults B = Some results -> forall ir,
  exists r, FindNearestPartitionScheme results ir = Ok r /\ In r results /\
    forall s, In s results ->
      Z.abs (ir - ps_ir r) <= Z.abs (ir - ps_ir s) /\
      (Z.abs (ir - ps_ir r) = Z.abs (ir - ps_ir s) -> ps_ir r <= ps_ir s).
Proof.
  intros B results Hr ir. apply find_nearest. intros ->.
  pose proof tables_checked as HT. unfold tables_ok in HT. rewrite forallb_forall in HT.
  specialize (HT _ (find_results_in _ _ _ Hr)). cbn [fst snd] in HT. rewrite !andb_true_iff in HT.
  destruct HT as [[_ HT] _]. discriminate.
Qed.
Example C16_example :
  (forall ir, In ir [1; 96; 97; 767; 768; 769; 10000000] ->
   exists r, FindNearestPartitionScheme kGarciaResults32 ir = Ok r) /\
  map (fun ir => match FindNearestPartitionScheme kGarciaResults32 ir with Ok r => ps_ir r | _ => 0 end)
      [1; 96; 97; 767; 768; 769; 10000000] = [64; 64; 128; 512; 512; 1024; 65536].
Proof.
  split; [|vm_compute; reflexivity].
  intros ir H. repeat (destruct H as [<-|H]); try destruct H; eexists; vm_compute; reflexivity.
Qed.

(** C18 *)
Lemma land_pred n : 0 < n -> Z.land n (n - 1) = 0 -> n = 2 ^ Z.log2 n.
Proof.
  intros Hn H. pose proof (Z.log2_spec n Hn) as [H1 H2].
  destruct (Z.eq_dec n (2 ^ Z.log2 n)) as [E|N]; auto. exfalso.
  pose proof (Z.log2_nonneg n) as Hk.
  assert (B1 : Z.testbit n (Z.log2 n) = true) by now apply Z.bit_log2.
  assert (E : Z.log2 (n - 1) = Z.log2 n).
  { apply Z.log2_unique; lia. }
  assert (B2 : Z.testbit (n - 1) (Z.log2 n) = true).
  { rewrite <- E. apply Z.bit_log2. pose proof (Z.pow_pos_nonneg 2 (Z.log2 n) ltac:(lia) Hk). lia. }
  assert (B3 : Z.testbit (Z.land n (n - 1)) (Z.log2 n) = true) by now rewrite Z.land_spec, B1, B2.
  rewrite H, Z.bits_0 in B3. discriminate.
Qed.

Lemma po2_loop_ok n : 0 < n < 2 ^ 30 -> forall i fuel j,
  j = Z.log2 n + 1 - Z.of_nat i -> 0 <= j -> (i <= fuel)%nat ->
  po2_loop fuel (2 ^ j) n = Ok (2 ^ (Z.log2 n + 1)).
Proof.
  intros Hn. pose proof (Z.log2_spec n ltac:(lia)) as [H1 H2]. pose proof (Z.log2_nonneg n).
  assert (Z.log2 n < 30) by (apply Z.log2_lt_pow2; lia).
  induction i as [|i IH]; intros fuel j Hj Hj0 Hf.
  - replace j with (Z.log2 n + 1) by lia. destruct fuel; cbn [po2_loop];
      (destruct (Z.leb_spec (2 ^ (Z.log2 n + 1)) n); [unfold Z.succ in *; lia|reflexivity]).
  - destruct fuel as [|fuel]; [lia|]. cbn [po2_loop].
    assert (2 ^ j <= 2 ^ Z.log2 n) by (apply Z.pow_le_mono_r; lia).
    destruct (Z.leb_spec (2 ^ j) n); [|lia].
    assert (W : wrap32 (2 * 2 ^ j) = 2 ^ (j + 1)).
    { rewrite Z.pow_add_r by lia. change (2 ^ 1) with 2.
      assert (2 ^ j <= 2 ^ 29) by (apply Z.pow_le_mono_r; lia).
      assert (0 < 2 ^ j) by (apply Z.pow_pos_nonneg; lia).
      change (2 ^ 29) with 536870912 in *.
      unfold wrap32. change (2 ^ 31) with 2147483648. change (2 ^ 32) with 4294967296.
      rewrite Z.mod_small; lia. }
    rewrite W. apply IH; lia.
Qed.

Lemma po2_below n : 0 < n <= 2 ^ 30 -> powerOfTwoEqualOrBelow n = Ok (2 ^ Z.log2 n).
Proof.
  intros Hn. unfold powerOfTwoEqualOrBelow. destruct (Z.leb_spec n 0); [lia|].
  destruct (Z.eqb_spec (Z.land n (n - 1)) 0) as [E|N].
  - f_equal. apply land_pred; auto; lia.
  - assert (n <> 2 ^ 30) by (intros ->; now apply N).
    pose proof (Z.log2_nonneg n). assert (Z.log2 n < 30) by (apply Z.log2_lt_pow2; lia).
    change 1 with (2 ^ 0) at 1. rewrite (po2_loop_ok n) with (i := Z.to_nat (Z.log2 n + 1)); [|lia..].
    cbn [bind]. rewrite Z.pow_add_r, Z.div_mul by lia. reflexivity.
Qed.

Definition requested (maximum_block_size : Z) (internal : option Z) : Z :=
  match internal with
  | Some b => if b =? 0 then maximum_block_size else Z.min maximum_block_size b
  | None => maximum_block_size
  end.

Lemma supported_pow2 e : 5 <= e <= 11 -> supported (2 ^ e).
Proof.
  intros He. assert (In e [5; 6; 7; 8; 9; 10; 11]) as H.
  { cbn. lia. }
  repeat (destruct H as [<-|H]); try destruct H; eexists; vm_compute; reflexivity.
Qed.

(** C18.  [m] is what the host and the specification ask for (an internal size of 0 is
    ignored, Convolver.cpp:27-30). *)
Theorem C18_block_size : forall maximum_block_size internal,
  let m := requested maximum_block_size internal in m <= 2 ^ 30 ->
  exists b e, conv_block_size maximum_block_size internal = Ok b /\ b = 2 ^ e /\ 5 <= e <= 11 /\
    supported b /\ (32 <= m <= 2048 -> b <= m < 2 * b) /\ (m < 32 -> b = 32) /\ (2048 < m -> b = 2048).
Proof.
  intros M I m Hm. unfold conv_block_size. fold (requested M I). fold m.
  destruct (Z_le_gt_dec m 0) as [H0|H0].
  { exists 32, 5. unfold powerOfTwoEqualOrBelow. destruct (Z.leb_spec m 0); [|lia]. cbn [bind].
    replace (Z.min 2048 (Z.max 32 m)) with 32 by lia.
    repeat split; auto; try lia. apply (supported_pow2 5); lia. }
  rewrite po2_below by lia. cbn [bind].
  pose proof (Z.log2_spec m ltac:(lia)) as [H1 H2]. unfold Z.succ in H2.
  pose proof (Z.log2_nonneg m). rewrite Z.pow_add_r in H2 by lia. change (2 ^ 1) with 2 in H2.
  destruct (Z_lt_le_dec m 32) as [C|C]; [|destruct (Z_le_gt_dec m 2048) as [D|D]].
  - exists 32, 5. replace (Z.min 2048 (Z.max 32 (2 ^ Z.log2 m))) with 32 by lia.
    repeat split; auto; try lia. apply (supported_pow2 5); lia.
  - assert (5 <= Z.log2 m) by (change 5 with (Z.log2 32); now apply Z.log2_le_mono).
    assert (Z.log2 m <= 11) by (change 11 with (Z.log2 2048); now apply Z.log2_le_mono).
    assert (2 ^ 5 <= 2 ^ Z.log2 m) by (apply Z.pow_le_mono_r; lia).
    assert (2 ^ Z.log2 m <= 2 ^ 11) by (apply Z.pow_le_mono_r; lia).
    change (2 ^ 5) with 32 in *. change (2 ^ 11) with 2048 in *.
    exists (2 ^ Z.log2 m), (Z.log2 m). replace (Z.min 2048 (Z.max 32 (2 ^ Z.log2 m))) with (2 ^ Z.log2 m) by lia.
    repeat split; auto; try lia. apply supported_pow2; lia.
  - assert (11 <= Z.log2 m) by (change 11 with (Z.log2 2048); apply Z.log2_le_mono; lia).
    assert (2 ^ 11 <= 2 ^ Z.log2 m) by (apply Z.pow_le_mono_r; lia).
    change (2 ^ 11) with 2048 in *.
    exists 2048, 11. replace (Z.min 2048 (Z.max 32 (2 ^ Z.log2 m))) with 2048 by lia.
    repeat split; auto; try lia. apply (supported_pow2 11); lia.
Qed.
Example C18_example :
  map (fun p => conv_block_size (fst p) (snd p))
    [(512, None); (480, None); (480, Some 300); (16, None); (100000, Some 0); (4095, None); (513, Some 1024)]
  = map Ok [512; 256; 256; 32; 2048; 2048; 512].
Proof. vm_compute. reflexivity. Qed.

(** Beyond 2^30 the search of the power of two never ends, unless the size is one: the shifted
    counter wraps to zero. *)
Theorem C18_not_beyond : forall n, 2 ^ 30 < n < 2 ^ 31 -> Z.land n (n - 1) <> 0 ->
  (forall fuel, po2_loop fuel 1 n = Diverge) /\
  forall internal, requested n internal = n -> conv_block_size n internal = Diverge.
Proof.
  intros n Hn Hl.
  assert (Hd : forall fuel, po2_loop fuel 1 n = Diverge); [|split; [exact Hd|]].
  2: { intros I HI. unfold conv_block_size. fold (requested n I). rewrite HI.
       unfold powerOfTwoEqualOrBelow. destruct (Z.leb_spec n 0); [lia|].
       destruct (Z.eqb_spec (Z.land n (n - 1)) 0); [contradiction|]. now rewrite Hd. }
  intros fuel.
  assert (H0 : forall f, po2_loop f 0 n = Diverge).
  { induction f; cbn [po2_loop]; (destruct (Z.leb_spec 0 n); [|lia]); auto. }
  assert (Hm : forall f, po2_loop f (- 2 ^ 31) n = Diverge).
  { intros f. destruct f; cbn [po2_loop]; (destruct (Z.leb_spec (- 2 ^ 31) n); [|lia]); auto.
    }
  assert (H : forall i f, (i <= 30)%nat -> po2_loop f (2 ^ (30 - Z.of_nat i)) n = Diverge).
  { induction i as [|i IH]; intros f Hi.
    - destruct f; cbn [po2_loop]; change (2 ^ (30 - Z.of_nat 0)) with (2 ^ 30);
        (destruct (Z.leb_spec (2 ^ 30) n); [|lia]); auto.
    - assert (2 ^ (30 - Z.of_nat (S i)) <= 2 ^ 29) by (apply Z.pow_le_mono_r; lia).
      assert (0 < 2 ^ (30 - Z.of_nat (S i))) by (apply Z.pow_pos_nonneg; lia).
      change (2 ^ 29) with 536870912 in *. change (2 ^ 30) with 1073741824 in *.
      destruct f; cbn [po2_loop]; (destruct (Z.leb_spec (2 ^ (30 - Z.of_nat (S i))) n); [|lia]); auto.
      replace (wrap32 (2 * 2 ^ (30 - Z.of_nat (S i)))) with (2 ^ (30 - Z.of_nat i)); [apply IH; lia|].
      unfold wrap32. change (2 ^ 31) with 2147483648. change (2 ^ 32) with 4294967296.
      rewrite Z.mod_small by lia. replace (30 - Z.of_nat i) with (Z.succ (30 - Z.of_nat (S i))) by lia.
      rewrite Z.pow_succ_r by lia. lia. }
  exact (H 30%nat fuel (le_n _)).
Qed.
Example C18_not_beyond_example : Z.land (2 ^ 30 + 7) (2 ^ 30 + 7 - 1) <> 0 /\
  conv_block_size (2 ^ 30 + 7) None = Diverge.
Proof. split; [discriminate|vm_compute; reflexivity]. Qed.

(** C28.  The code does not reject an empty response: constructing a convolver from one never
    succeeds, whatever the settings.  It violates a jassert, and without assertions the choice of
    the partition scheme runs off the end of the layout ([back] of an empty vector). *)
Theorem C28_empty_response : forall (A : arith) (R : rfft A) ir,
  num_samples ir = 0%nat -> forall maximum_block_size spec b,
  conv_block_size (Z.of_nat maximum_block_size) (cs_internal spec) = Ok b ->
  conv_make R ir maximum_block_size spec = Undef.
Proof.
  intros A R ir E M spec b Eb. unfold conv_make. rewrite Eb. cbn [bind].
  unfold nupc_make. rewrite E. reflexivity.
Qed.
Theorem C28_without_assertions : forall B, supported B ->
  GetPartitionScheme kGarciaResults B 0 = Undef.
Proof.
  intros B [results Hr]. pose proof (find_results_in _ _ _ Hr) as Hin.
  assert (H : Forall (fun e => GetPartitionScheme kGarciaResults (fst e) 0 = Undef) kGarciaResults).
  { unfold kGarciaResults at 2. repeat constructor; vm_compute; reflexivity. }
  rewrite Forall_forall in H. exact (H _ Hin).
Qed.
Example C28_example : forall (A : arith) (R : rfft A),
  conv_make R [[]; []] 480 {| cs_in := [0%nat]; cs_out := [0%nat]; cs_fade := kCrossfade; cs_internal := None |}
  = Undef.
Proof. intros A R. apply C28_empty_response with (b := 256); vm_compute; reflexivity. Qed.

Print Assumptions C14_covers.
Print Assumptions C15_clearance.
Print Assumptions C16_nearest.
Print Assumptions C18_block_size.
Print Assumptions C18_not_beyond.
Print Assumptions C28_empty_response.
Print Assumptions C28_without_assertions.
