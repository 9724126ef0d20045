(** * The checked integers are those of the model of the convolver *)
From Verif.Model Require Import Base Arith Juce ComplexBuffer FrequencyDelayLine DecompositionSchedule Float32 Partitioning PartitionSchemes IntArith
     UniformPartitionedConvolver TimeDistributedUPC TimeDistributedUPCMulti TimeDistributedNUPC.
From Verif.Spec Require Import Layout.
From Verif.Proofs Require Import Lists FloatProof PartitionProof MultiProof IntProof.
Local Open Scope Z_scope.

Lemma td_process_int_ok B s nd off phase : 0 < B <= 4096 -> 0 <= s <= 24 -> 2 ^ s * B <= 16777216 ->
  0 <= nd <= s -> 0 <= off -> off + 2 * 2 ^ nd <= 2 ^ s -> 0 <= phase < 2 ^ s ->
  td_process_int B (2 ^ s) off nd phase = Ok ((phase + 1) mod 2 ^ s).
Proof.
  intros HB Hs HsB Hnd Hoff Hact Hph. unfold td_process_int.
  assert (H5 : 0 < 2 ^ s) by (apply Z.pow_pos_nonneg; lia).
  assert (H6 : 0 < 2 ^ nd) by (apply Z.pow_pos_nonneg; lia).
  assert (Hs24 : 2 ^ s <= 16777216) by nia.
  rewrite td_make_int_ok by lia. cbn [bind]. fits_by lia. fits_by lia. fits_by lia.
  set (N := 2 ^ nd) in *. set (P := 2 ^ s * B) in *. assert (HP : 0 < P) by (unfold P; nia).
  set (sub := 2 * P / N). set (half := sub / 2).
  assert (Hsub : 0 <= sub /\ N * sub <= 2 * P).
  { unfold sub. split; [apply Z.div_pos; lia|]. apply Z.mul_div_le. lia. }
  assert (Hhalf : 0 <= half /\ 2 * half <= sub).
  { unfold half. split; [apply Z.div_pos; lia|]. apply Z.mul_div_le. lia. }
  assert (Hsub2 : sub <= 2 * P) by nia.
  match goal with |- bind ?x _ = _ => assert (E : x = Ok tt) end.
  { destruct (Z.leb_spec off phase) as [Hle|]; [|reflexivity].
    destruct (Z.ltb_spec phase (off + N * 2)) as [Hlt|]; [|reflexivity]. cbn [andb].
    fits_by lia. set (w := phase - off) in *. assert (Hw : 0 <= w < 2 * N) by (unfold w; lia).
    assert (Hwh : 0 <= w * half <= 2 * P).
    { split; [nia|]. apply Z.le_trans with (2 * N * half); nia. }
    fits_by lia.
    match goal with |- bind ?x _ = _ => assert (E : x = Ok tt) end.
    { destruct (w mod 2 =? 0).
      - apply for_int_ok; [change (2 ^ 31) with 2147483648; lia|]. intros i Hi. now fits_by lia.
      - fits_by lia.
        assert (Hw2 : (w - 1) / 2 * sub <= 2 * P /\ -1 <= (w - 1) / 2).
        { pose proof (Z.mul_div_le (w - 1) 2 ltac:(lia)).
          pose proof (Z.div_le_lower_bound (w - 1) 2 (-1) ltac:(lia) ltac:(lia)). split; [|lia].
          assert ((w - 1) / 2 <= N) by lia. nia. }
        fits_by nia. reflexivity. }
    rewrite E. cbn [bind].
    apply for_int_ok; [change (2 ^ 31) with 2147483648; lia|]. intros i Hi. now fits_by lia. }
  rewrite E. cbn [bind].
  rewrite for_int_ok.
  - cbn [bind]. now fits_by lia.
  - change (2 ^ 31) with 2147483648. lia.
  - intros i Hi. assert (0 <= phase * B + i < P) by (unfold P; nia).
    rewrite Z.mod_small by (change (2 ^ 64) with 18446744073709551616; lia).
    fits_by lia. replace (2 * P / 2) with P by (rewrite Z.mul_comm, Z.div_mul; lia). now fits_by lia.
Qed.

Section Link.
  Context {A : arith} (R : rfft A).
  Local Open Scope nat_scope.

  Lemma blk_sub_samples (b s : audio A) off len : blk_sub b off len = Ok s -> num_samples s = len.
  Proof.
    unfold blk_sub. intros H. destruct (Nat.ltb_spec off (num_samples b)) as [Hlt|]; [|discriminate].
    cbn [assert bind] in H. destruct b as [|c b]; [cbn in Hlt; lia|]. cbn [mapM] in H.
    unfold chan_sub at 1 in H. destruct (Nat.leb_spec (off + len) (length c)); [|discriminate]. cbn [bind] in H.
    apply bind_inv in H as (t & _ & H). injection H as <-. cbn [num_samples].
    rewrite firstn_length, skipn_length. lia.
  Qed.

  Lemma multi_make_filters C B psb (seg : audio A) m (Hm : multi_make C B psb seg = Ok m) :
    0 < psb * B -> (Z.of_nat (num_samples seg) <= 16777216)%Z ->
    Z.of_nat (length (m_filters m)) = zceil (Z.of_nat (num_samples seg)) (Z.of_nat psb * Z.of_nat B).
  Proof.
    intros HP Hn. unfold multi_make in Hm. rewrite num_partitions_exact in Hm by (change (2 ^ 24)%Z with 16777216%Z; lia).
    cbn [bind] in Hm. apply bind_inv in Hm as (fl & Ef & Hm).
    apply bind_inv in Hm as (pw & _ & Hm). apply bind_inv in Hm as (ts & _ & Hm). injection Hm as <-.
    cbn [m_filters]. apply mapM_length in Ef. rewrite seq_length in Ef. rewrite Ef.
    rewrite <- Nat2Z.inj_mul.
    pose proof (zceil_bound (Z.of_nat (num_samples seg)) (Z.of_nat (psb * B)) ltac:(lia) ltac:(lia)). lia.
  Qed.

  Lemma upc_make_filters C B (seg : audio A) u (Hm : upc_make R C B seg = Ok u) :
    0 < B -> (Z.of_nat (num_samples seg) <= 16777216)%Z ->
    Z.of_nat (length (u_filters u)) = zceil (Z.of_nat (num_samples seg)) (Z.of_nat B).
  Proof.
    intros HP Hn. unfold upc_make in Hm. rewrite assert_true in Hm by (now apply Nat.ltb_lt). cbn [bind] in Hm.
    rewrite num_partitions_exact in Hm by (change (2 ^ 24)%Z with 16777216%Z; lia).
    cbn [bind] in Hm. apply bind_inv in Hm as (fl & Ef & Hm). injection Hm as <-.
    cbn [upc_reset u_filters]. apply mapM_length in Ef. rewrite seq_length in Ef. rewrite Ef.
    pose proof (zceil_bound (Z.of_nat (num_samples seg)) (Z.of_nat B) ltac:(lia) ltac:(lia)). lia.
  Qed.

  Definition subs_view (ms : list (multi A)) (ds : list nat) : list (Z * Z) :=
    combine (map (fun m => Z.of_nat (length (m_filters m))) ms) (map Z.of_nat ds).

  Lemma nupc_subs_link C B (ir : audio A) : 0 < B -> (Z.of_nat (num_samples ir) <= 16777216)%Z ->
    forall l off ms ds, nupc_subs C B ir off l = Ok (ms, ds) ->
    subs_fit (Z.of_nat B) (Z.of_nat (num_samples ir)) (Z.of_nat off) l ->
    subs_view ms ds = subs_spec (Z.of_nat B) (Z.of_nat (num_samples ir)) (Z.of_nat off) l /\
    (length ms = length l /\ length ds = length l) /\
    forall j, j < length l -> exists (seg : audio A) psb m,
      nth_error ms j = Some m /\ multi_make C B psb seg = Ok m /\ 0 < num_samples seg <= num_samples ir /\
      Z.of_nat psb = pl_size (nth j l {| pl_size := 0; pl_num := 0 |}).
  Proof.
    intros HB Hir. induction l as [|a t IH]; intros off ms ds Hs Hfit; cbn [nupc_subs] in Hs.
    - injection Hs as <- <-. split; [reflexivity|]. split; [now split|]. cbn. lia.
    - cbn [subs_fit subs_spec] in *. destruct Hfit as ((e & He & Ee) & Hn & HsB & Hof & Hos & Hr).
      assert (H5 : (0 < 2 ^ e)%Z) by (apply Z.pow_pos_nonneg; lia).
      assert (Hps : (0 < pl_samples a (Z.of_nat B))%Z) by (unfold pl_samples; rewrite Ee; apply Z.mul_pos_pos; nia).
      unfold nat_of in Hs at 1. destruct (Z.ltb_spec (pl_samples a (Z.of_nat B)) 0); [lia|]. cbn [bind] in Hs.
      unfold nat_of in Hs at 1. destruct (Z.ltb_spec (pl_size a) 0); [lia|]. cbn [bind] in Hs.
      set (ts := Z.to_nat (pl_samples a (Z.of_nat B))) in *. set (psb := Z.to_nat (pl_size a)) in *.
      assert (Ets : Z.of_nat ts = pl_samples a (Z.of_nat B)) by (unfold ts; lia).
      assert (Eps : Z.of_nat psb = pl_size a) by (unfold psb; lia).
      unfold usub in Hs at 1. destruct (Nat.leb_spec off (num_samples ir)); [|discriminate]. cbn [bind] in Hs.
      apply bind_inv in Hs as (seg & Eseg & Hs). apply bind_inv in Hs as (m & Em & Hs).
      unfold usub in Hs at 1. destruct (Nat.leb_spec (2 * (psb * B)) (off + B)); [|discriminate]. cbn [bind] in Hs.
      apply bind_inv in Hs as ([ms' ds'] & Er & Hs). injection Hs as <- <-.
      apply blk_sub_samples in Eseg.
      rewrite <- Ets in Hr. rewrite <- Nat2Z.inj_add in Hr.
      destruct (IH _ _ _ Er Hr) as (I1 & (I2 & I3) & I4).
      assert (HpB : 0 < psb * B) by (apply Nat.mul_pos_pos; lia).
      split; [|split].
      + unfold subs_view in *. cbn [map combine]. rewrite I1. rewrite (multi_make_filters C B psb seg m Em) by lia.
        rewrite Eseg. f_equal; [|do 2 f_equal; lia]. rewrite Eps. f_equal; [f_equal; lia|]. rewrite <- Eps. lia.
      + cbn [length]. lia.
      + intros [|j] Hj.
        * exists seg, psb, m. cbn [nth_error nth]. repeat split; auto; rewrite Eseg; lia.
        * cbn [length] in Hj. destruct (I4 j) as (sg & p & mm & J1 & J2 & J3 & J4); [lia|].
          exists sg, p, mm. auto.
  Qed.

  (** the convolvers of one segment: their parameters *)
  Lemma multi_make_params C B s (seg : audio A) m :
    1 <= s -> multi_make C B (2 ^ s) seg = Ok m -> 0 < num_samples seg ->
    forall t, In t (m_tdupcs m) ->
      t_num_phases t = 2 ^ s /\ t_partition t = B * 2 ^ s /\ t_points t = 2 * (B * 2 ^ s) /\
      t_nd t <= s /\ t_offset t + 2 * 2 ^ t_nd t <= 2 ^ s /\ t_phase t = 0 /\
      t_num_partitions t = length (m_filters m) /\
      fdl_head (t_fdl t) = 0 /\ fdl_num_blocks (t_fdl t) = t_num_partitions t /\ st_head (t_stages t) = 0%Z.
  Proof.
    intros Hs Hm Hn t Ht. unfold multi_make in Hm.
    apply bind_inv in Hm as (n & _ & Hm). apply bind_inv in Hm as (fl & _ & Hm).
    apply bind_inv in Hm as (pw & Ep & Hm). apply bind_inv in Hm as (ts & Et & Hm). injection Hm as <-.
    cbn [m_tdupcs] in Ht.
    destruct (powers_ok C C (le_n _)) as (pw' & Ep' & _ & Hpow). unfold GetPowersOf2In in Ep.
    rewrite Ep' in Ep. injection Ep as ->.
    destruct seg as [|c seg]; [cbn in Hn; lia|].
    assert (G : forall co powers, (forall p, In p powers -> exists g, p = 2 ^ g) -> forall ts,
      multi_groups B (2 ^ s) (length (c :: seg)) fl co powers = Ok ts -> In t ts ->
      exists fc off nd, nd <= s /\ off + 2 * 2 ^ nd <= 2 ^ s /\ t = td_make B (2 ^ s) fl fc off nd).
    { clear. intros co powers Hp ts Et Ht. revert co ts Et Ht.
      induction powers as [|p ps IH]; intros co ts Et Ht; cbn [multi_groups] in Et.
      - injection Et as <-. destruct Ht.
      - apply bind_inv in Et as (g & Eg & Et). apply bind_inv in Et as (r & Er & Et). injection Et as <-.
        apply in_app_or in Ht as [Ht|Ht].
        + destruct (Hp p (or_introl eq_refl)) as (gg & ->). unfold multi_group in Eg.
          apply bind_inv in Eg as (nd & End & Eg).
          pose proof (mapM_length _ _ _ Eg) as Hlen.
          apply (In_nth _ _ t) in Ht as (i & Hi & Hnth).
          pose proof (mapM_nth _ _ _ i 0 t Eg ltac:(lia)) as Hm. rewrite Hnth in Hm.
          rewrite Hlen, seq_length in Hi. rewrite seq_nth in Hm by lia. cbn [Nat.add] in Hm.
          apply bind_inv in Hm as (tf & Etf & Hm). apply bind_inv in Hm as (fc & _ & Hm). injection Hm as <-.
          unfold umod in Etf. destruct (Nat.eqb_spec (2 ^ s) 0); [discriminate|]. injection Etf as <-.
          unfold multi_nd in End. destruct (Nat.ltb_spec 0 (2 ^ s / 2)) as [Hh|]; [|discriminate].
          cbn [assert bind] in End. assert (nd = Nat.log2 (2 ^ s / 2) - Nat.log2 (2 ^ gg)) as -> by congruence.
          assert (Hs1 : 1 <= s). { destruct s; [cbn in Hh; lia|lia]. }
          assert (El : Nat.log2 (2 ^ s / 2) = s - 1).
          { replace s with (S (s - 1)) at 1 by lia. rewrite Nat.pow_succ_r', Nat.mul_comm, Nat.div_mul by lia.
            apply Nat.log2_pow2. lia. }
          rewrite El, (Nat.log2_pow2 gg) by lia.
          exists fc, ((i * 2 ^ (s - 1 - gg + 1)) mod 2 ^ s), (s - 1 - gg).
          split; [lia|]. split; [|reflexivity].
          replace (s - 1 - gg + 1) with (S (s - 1 - gg)) by lia.
          pose proof (mod_room i (S (s - 1 - gg)) s ltac:(lia)) as Hr. cbn [Nat.pow] in Hr |- *. lia.
        + apply (IH (fun q Hq => Hp q (or_intror Hq)) _ _ Er Ht). }
    destruct (G 0 pw Hpow ts Et Ht) as (fc & off & nd & H1 & H2 & ->).
    cbn [td_make td_reset td_with t_num_phases t_partition t_points t_nd t_offset t_phase t_num_partitions t_fdl t_stages
         fdl_clear fdl_make fdl_head fdl_num_blocks st_clear st_make st_head m_filters]. repeat split; auto.
  Qed.
End Link.
