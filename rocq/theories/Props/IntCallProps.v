(** * C74: the C++ ints of calls of Process *)
From Verif.Model Require Import Base Arith ArithMod Juce ComplexBuffer FrequencyDelayLine DecompositionSchedule Float32 Partitioning PartitionSchemes IntArith IntLoops
     UniformPartitionedConvolver TimeDistributedUPC TimeDistributedUPCMulti TimeDistributedNUPC Convolver.
From Verif.Spec Require Import Layout Signal.
From Verif.Proofs Require Import Lists FloatProof PartitionProof MultiProof IntProof IntLink IntLoopsProof.
From Verif.Props Require Import PartitionProps.

Section Made.
  Context {A : arith} (R : rfft A).

  Lemma subs_few B ir : (0 < B)%Z -> forall l off, subs_fit B ir off l -> (Z.of_nat (length l) <= Z.max 0 (ir - off))%Z.
  Proof.
    intros HB. induction l as [|a l IH]; intros off H; cbn [length]; [lia|]. destruct H as ((e & He & Ee) & Hn & _ & Ho & _ & H).
    specialize (IH _ H). assert (0 < 2 ^ e)%Z by (apply Z.pow_pos_nonneg; lia).
    assert (1 <= pl_samples a B)%Z.
    { unfold pl_samples. rewrite Ee. assert (0 < 2 ^ e * pl_num a)%Z by nia. nia. }
    lia.
  Qed.
  Lemma pow2_twice e : next_pow2 (2 ^ e * 2) = 2 ^ e * 2.
  Proof.
    unfold next_pow2. replace (2 ^ e * 2) with (2 ^ S e) by (cbn [Nat.pow]; lia). rewrite Nat.log2_up_pow2 by lia. reflexivity.
  Qed.

  Lemma made_ints ir M spec c : conv_make R ir M spec = Ok c ->
    (requested (Z.of_nat M) (cs_internal spec) <= 2 ^ 30)%Z -> (Z.of_nat (num_samples ir) <= 2 ^ 24)%Z -> (Z.of_nat (length ir) <= 2 ^ 29)%Z ->
    exists e, c_block c = 2 ^ e /\ 5 <= e /\ (Z.of_nat (c_block c) <= 4096)%Z /\ 0 < length ir /\
      let P := length (u_filters (n_upc (c_nupc c))) in let T := length (n_tdupcs (c_nupc c)) in
      (Z.of_nat P <= 16777216)%Z /\ (Z.of_nat T <= 16777216)%Z /\ convI (length ir) (c_block c) P T c.
  Proof.
    intros Hc Hreq Hm HC. unfold conv_make in Hc.
    destruct (C18_block_size (Z.of_nat M) (cs_internal spec) Hreq) as (b & e & Eb & Ebe & He & [results Hr] & _).
    rewrite Eb in Hc. cbn [bind] in Hc. apply bind_inv in Hc as (n & En & Hc). injection Hc as <-.
    cbn [c_block c_nupc] in *. pose proof (supported_block b results Hr) as HB.
    set (B := Z.to_nat b) in *. assert (EB : Z.of_nat B = b) by (unfold B; lia). rewrite <- EB in Hr.
    unfold nupc_make in En. destruct (Nat.ltb_spec 0 (num_samples ir)) as [Hpos|]; [|discriminate]. cbn [assert bind] in En.
    destruct (nupc_make_int_ok (Z.of_nat (length ir)) (Z.of_nat B) (Z.of_nat (num_samples ir)) results) as (a & t & Es & G & _).
    { change (2 ^ 29)%Z with 536870912%Z in HC. lia. } { exact Hr. } { lia. }
    change (2 ^ 24)%Z with 16777216%Z in *.
    rewrite Es in En. cbn [bind] in En. destruct G as (a' & t' & E0 & G1 & G2 & G3 & G4). injection E0 as <- <-.
    assert (Hpa : (0 < pl_samples a (Z.of_nat B))%Z) by (unfold pl_samples; rewrite G1; nia).
    unfold nat_of in En at 1. destruct (Z.ltb_spec (pl_samples a (Z.of_nat B)) 0); [lia|]. cbn [bind] in En.
    set (us := Z.to_nat (pl_samples a (Z.of_nat B))) in *. set (off := Nat.min us (num_samples ir)) in *.
    assert (Hoff : 0 < off <= num_samples ir) by (unfold off, us; lia).
    assert (Eo : Z.of_nat off = Z.min (pl_samples a (Z.of_nat B)) (Z.of_nat (num_samples ir))).
    { unfold off. rewrite Nat2Z.inj_min. f_equal. unfold us. lia. }
    apply bind_inv in En as (sg & Esg & En). apply bind_inv in En as (u & Eu & En).
    apply bind_inv in En as ([subs delays] & Esub & En). injection En as <-. apply blk_sub_samples in Esg.
    assert (Hfit : subs_fit (Z.of_nat B) (Z.of_nat (num_samples ir)) (Z.of_nat off) t).
    { destruct t as [|b0 t]; [exact I|].
      destruct (G3 [] b0 t eq_refl) as (_ & _ & _ & Q4). cbn [layout_samples] in Q4.
      assert (Eo2 : Z.of_nat off = layout_samples (Z.of_nat B) [a]).
      { rewrite Eo, Z.min_l by (unfold pl_samples; lia). cbn [layout_samples]. unfold pl_samples. lia. }
      rewrite Eo2. refine (good_fit (Z.of_nat B) (Z.of_nat (num_samples ir)) ltac:(lia) ltac:(lia) (b0 :: t) a G1 G2 G3 _ [] (b0 :: t) eq_refl).
      assert (Hne : b0 :: t <> []) by discriminate.
      destruct (last_snoc_app (b0 :: t) a Hne) as (pre & z & Ez & El). rewrite El in G4.
      destruct (G3 pre z [] Ez) as (_ & _ & Q3 & Q5). lia. }
    destruct (nupc_subs_link (length ir) B ir ltac:(lia) Hm t off subs delays Esub Hfit) as (_ & (L1 & _) & Hj).
    pose proof (subs_few (Z.of_nat B) (Z.of_nat (num_samples ir)) ltac:(lia) t _ Hfit) as Hfew.
    pose proof (upc_make_filters R _ _ _ _ Eu ltac:(lia) ltac:(rewrite Esg; lia)) as HP. rewrite Esg in HP.
    pose proof (zceil_bound (Z.of_nat off) (Z.of_nat B) ltac:(lia) ltac:(lia)) as HZ1.
    pose proof (zceil_spec (Z.of_nat off) (Z.of_nat B) ltac:(lia)) as HZ2.
    assert (EB2 : B = 2 ^ Z.to_nat e) by (apply Nat2Z.inj; rewrite Nat2Z.inj_pow, Z2Nat.id by lia; rewrite EB; exact Ebe).
    exists (Z.to_nat e). split; [exact EB2|]. split; [lia|]. split; [lia|].
    assert (HC0 : 0 < length ir) by (destruct ir; cbn in *; lia). split; [exact HC0|].
    cbn [nupc_reset n_upc n_tdupcs upc_reset u_filters c_channels c_routing]. rewrite map_length.
    split; [lia|]. split; [lia|].
    assert (HU : upcI B (length (u_filters u)) (upc_reset u)).
    { assert (HU0 : (0 < Z.of_nat (length (u_filters u)))%Z) by nia. clear HP HZ1 HZ2.
      unfold upc_make in Eu. apply bind_inv in Eu as (x0 & _ & Eu). apply bind_inv in Eu as (x1 & _ & Eu). apply bind_inv in Eu as (x2 & Ef & Eu).
      injection Eu as <-. apply mapM_length in Ef. rewrite seq_length in Ef.
      unfold upcI. cbn [upc_reset u_partition u_discard u_filters u_fdl u_collected fdl_clear fdl_make fdl_num_blocks fdl_head] in *.
      assert (Ed : next_pow2 (B * 2) - B = B) by (rewrite EB2, pow2_twice; lia). rewrite Ed. repeat split; try lia. }
    unfold convI. cbn [c_block c_channels c_routing c_nupc]. split; [reflexivity|]. split; [reflexivity|].
    split.
    { unfold zeros. clear. induction (length ir) as [|k IH]; [reflexivity|]. cbn [repeat map]. now rewrite repeat_length, IH. }
    unfold nupcI. cbn [nupc_reset n_block n_collected n_upc n_tdupcs]. split; [reflexivity|]. split; [lia|]. split; [exact HU|].
    split; [|now rewrite map_length].
    intros m Hin t0 Ht. apply in_map_iff in Hin as (m0 & <- & Hin).
    unfold multi_reset in Ht. cbn [m_tdupcs] in Ht. apply in_map_iff in Ht as (t1 & <- & Ht). apply td_reset_keeps.
    apply In_nth_error in Hin as (j & Ej).
    assert (Hjl : j < length t). { rewrite <- L1. apply nth_error_Some. now rewrite Ej. }
    destruct (Hj j Hjl) as (seg & psb & mm & J1 & J2 & J3 & J4). rewrite Ej in J1. injection J1 as <-.
    set (z0 := {| pl_size := 0; pl_num := 0 |}) in *.
    destruct (nth_split t z0 Hjl) as (pre & post & Ez & _).
    destruct (G3 pre _ post Ez) as ((s & Hs1 & Es2) & _ & Q3 & Q5).
    set (sn := Z.to_nat s). assert (Esn : psb = 2 ^ sn).
    { apply Nat2Z.inj. rewrite J4, Es2, Nat2Z.inj_pow. unfold sn. rewrite Z2Nat.id by lia. reflexivity. }
    assert (H5 : (0 < 2 ^ s)%Z) by (apply Z.pow_pos_nonneg; lia).
    rewrite Es2 in Q3.
    rewrite Esn in J2. destruct (multi_make_params (length ir) B sn seg m0 ltac:(unfold sn; lia) J2 (proj1 J3) t1 Ht) as (P1 & P2 & P3 & P4 & P5 & P6 & P7 & P8 & P9 & P10).
    assert (Z1 : Z.of_nat (2 ^ sn) = (2 ^ s)%Z).
    { rewrite Nat2Z.inj_pow. unfold sn. rewrite Z2Nat.id by lia. reflexivity. }
    assert (HSB : (Z.of_nat (2 ^ sn * B) <= 16777216)%Z) by (rewrite Nat2Z.inj_mul, Z1; nia).
    assert (Hs24 : 1 <= sn <= 24).
    { split; [unfold sn; lia|]. destruct (Z_le_gt_dec s 24) as [|Hgt]; [unfold sn; lia|]. exfalso.
      assert (2 ^ 25 <= 2 ^ s)%Z by (apply Z.pow_le_mono_r; lia). change (2 ^ 25)%Z with 33554432%Z in *. nia. }
    assert (Hp0 : 0 < 2 ^ sn) by lia.
    pose proof (multi_make_filters (length ir) B (2 ^ sn) seg m0 J2 ltac:(nia) ltac:(lia)) as HF.
    assert (HPB : (0 < Z.of_nat (2 ^ sn) * Z.of_nat B)%Z) by nia.
    pose proof (zceil_bound (Z.of_nat (num_samples seg)) _ ltac:(lia) HPB) as HZ3.
    pose proof (zceil_spec (Z.of_nat (num_samples seg)) _ HPB) as HZ4. rewrite <- HF in HZ3, HZ4.
    unfold tdI. split.
    { exists sn. rewrite P6. repeat split; auto; lia. }
    rewrite P7, P8, P9, P10. repeat split; auto; try lia.
  Qed.

  Lemma feed_keeps e C B P T : B = 2 ^ e -> 5 <= e -> 0 < C -> (Z.of_nat C < 2147483648)%Z -> (Z.of_nat P <= 16777216)%Z -> (Z.of_nat B <= 4096)%Z ->
    (Z.of_nat T <= 16777216)%Z -> forall bs c c' outs, (forall b, In b bs -> (Z.of_nat (num_samples b) < 2147483648)%Z) ->
    convI C B P T c -> feed (conv_process R) c bs = Ok (c', outs) -> convI C B P T c'.
  Proof.
    intros H1 H2 H3 H4 H5 H6 H7. induction bs as [|b bs IH]; intros c c' outs Hb HI E; cbn [feed] in E; [injection E as <- <-; assumption|].
    apply bind_inv in E as ([c1 o1] & E1 & E). apply bind_inv in E as ([c2 o2] & E2 & E). injection E as <- <-.
    refine (IH c1 _ _ (fun x Hx => Hb x (or_intror Hx)) _ E2).
    exact (proj2 (conv_process_link R e C B P T c c1 b o1 H1 H2 H3 H4 H5 H6 H7 HI (Hb b (or_introl eq_refl)) E1)).
  Qed.
  Lemma sessions_keep e C B P T : B = 2 ^ e -> 5 <= e -> 0 < C -> (Z.of_nat C < 2147483648)%Z -> (Z.of_nat P <= 16777216)%Z -> (Z.of_nat B <= 4096)%Z ->
    (Z.of_nat T <= 16777216)%Z -> forall ss c c' outs, (forall bs b, In bs ss -> In b bs -> (Z.of_nat (num_samples b) < 2147483648)%Z) ->
    convI C B P T c -> feed_sessions (conv_process R) conv_reset c ss = Ok (c', outs) -> convI C B P T c'.
  Proof.
    intros H1 H2 H3 H4 H5 H6 H7. induction ss as [|bs ss IH]; intros c c' outs Hb HI E; cbn [feed_sessions] in E; [injection E as <- <-; assumption|].
    apply bind_inv in E as ([c1 o1] & E1 & E). apply bind_inv in E as ([c2 o2] & E2 & E). injection E as <- <-.
    refine (IH _ _ _ (fun x y Hx => Hb x y (or_intror Hx)) _ E2). apply conv_reset_keeps.
    exact (feed_keeps e C B P T H1 H2 H3 H4 H5 H6 H7 bs c c1 o1 (fun y Hy => Hb bs y (or_introl eq_refl) Hy) HI E1).
  Qed.
End Made.

(** The ints that a convolver keeps from call to call: the collected samples of the non-uniform convolver and of the uniform one, and
    the head of its delay line; for a time-distributed convolver the heads of its stages and of its delay line. *)
Definition kept {A} (c : convolver A) : Z * (Z * Z) :=
  let n := c_nupc c in let u := n_upc n in
  (Z.of_nat (n_collected n), (Z.of_nat (u_collected u), Z.of_nat (fdl_head (u_fdl u)))).
Definition td_kept {A} (t : tdupc A) : Z * Z := (st_head (t_stages t), Z.of_nat (fdl_head (t_fdl t))).

(** After any history of blocks and resets: in the next call of Process, for a block of any length that an int can hold, no int
    operation overflows, and the ints kept are those of the convolver.  The same for the next call of every time-distributed
    convolver inside, with the transforms it calls. *)
Theorem C74_no_int_overflow_in_calls : forall (A : arith) (R : rfft A) (ir : audio A) maximum_block_size spec c0,
  conv_make R ir maximum_block_size spec = Ok c0 ->
  (requested (Z.of_nat maximum_block_size) (cs_internal spec) <= 2 ^ 30)%Z ->
  (Z.of_nat (num_samples ir) <= 2 ^ 24)%Z -> (Z.of_nat (length ir) <= 2 ^ 29)%Z ->
  let fits (b : audio A) := (Z.of_nat (num_samples b) < 2 ^ 31)%Z in
  forall sessions blocks c1 c outs outs', (forall bs b, In bs sessions -> In b bs -> fits b) -> (forall b, In b blocks -> fits b) ->
  feed_sessions (conv_process R) conv_reset c0 sessions = Ok (c1, outs) -> feed (conv_process R) c1 blocks = Ok (c, outs') ->
  (forall b c' out, fits b -> conv_process R c b = Ok (c', out) ->
     conv_process_int (Z.of_nat (length ir)) (Z.of_nat (c_block c0)) (Z.of_nat (u_discard (n_upc (c_nupc c0))))
       (Z.of_nat (length (u_filters (n_upc (c_nupc c0))))) (Z.of_nat (length (n_tdupcs (c_nupc c0)))) (Z.of_nat (num_samples b)) (kept c) = Ok (kept c')) /\
  (forall m t, In m (n_tdupcs (c_nupc c)) -> In t (m_tdupcs m) -> t_phase t < t_num_phases t /\
     forall x t' y, td_process t x = Ok (t', y) ->
     td_calls_int (Z.of_nat (t_points t)) (Z.of_nat (t_num_phases t)) (Z.of_nat (t_offset t)) (Z.of_nat (t_nd t)) (Z.of_nat (t_num_partitions t))
       (fst (td_kept t)) (snd (td_kept t)) (Z.of_nat (t_phase t)) = Ok (td_kept t')).
Proof.
  intros A R ir M spec c0 Hc Hreq Hm HC fits ss bs c1 c o o' Hss Hbs E1 E2.
  destruct (made_ints R ir M spec c0 Hc Hreq Hm HC) as (e & EB & He & HB & HC0 & HP & HT & HI).
  set (B := c_block c0) in *. set (P := length (u_filters (n_upc (c_nupc c0)))) in *. set (T := length (n_tdupcs (c_nupc c0))) in *.
  assert (HC2 : (Z.of_nat (length ir) < 2147483648)%Z) by (change (2 ^ 29)%Z with 536870912%Z in HC; lia).
  pose proof (sessions_keep R e (length ir) B P T EB He HC0 HC2 HP HB HT ss c0 c1 o Hss HI E1) as HI1.
  pose proof (feed_keeps R e (length ir) B P T EB He HC0 HC2 HP HB HT bs c1 c o' Hbs HI1 E2) as HI2.
  assert (Ed : u_discard (n_upc (c_nupc c0)) = B) by apply HI. rewrite Ed. split.
  - intros b c' out Hb Ep. exact (proj1 (conv_process_link R e (length ir) B P T c c' b out EB He HC0 HC2 HP HB HT HI2 Hb Ep)).
  - intros m t Hin Ht. destruct HI2 as (_ & _ & _ & _ & _ & _ & HM & _). specialize (HM m Hin t Ht). split.
    + destruct HM as ((s & S1 & _ & _ & _ & _ & _ & _ & S8) & _). now rewrite S1.
    + intros x t' y Ep. exact (proj1 (td_process_link e B t t' x y EB He HB HM Ep)).
Qed.
Print Assumptions C74_no_int_overflow_in_calls.

(** C62 shows that every response that fits is built and that no call fails.  A response of 20000 samples in blocks of 64 (C74_example): calls with 200 samples, then 30; the first and an active phase of its
    convolver with 6 partitions of 16 blocks. *)
Example C74_calls_example :
  conv_process_int 2 64 64 9 2 200 (0, (0, 0))%Z = Ok (8, (8, 5))%Z /\
  conv_process_int 2 64 64 9 2 30 (8, (8, 5))%Z = Ok (38, (38, 5))%Z /\
  td_calls_int 2048 16 4 2 6 0 0 0 = Ok (1, 5)%Z /\ td_calls_int 2048 16 4 2 6 1 5 4 = Ok (1, 5)%Z.
Proof. vm_compute. auto. Qed.
