(** * No overflow of C++ ints in a call of Process *)
From Verif.Model Require Import Base Arith Juce ComplexBuffer FrequencyDelayLine DecompositionSchedule FFT Float32 Partitioning PartitionSchemes IntArith IntLoops
     UniformPartitionedConvolver TimeDistributedUPC TimeDistributedUPCMulti TimeDistributedNUPC Convolver.
From Verif.Spec Require Import Layout Signal.
From Verif.Proofs Require Import Lists FloatProof PartitionProof FFTProof MultiProof IntProof IntLink.
Local Open Scope Z_scope.

(** ** the transforms *)
Lemma fft_level_int_ok k d : 0 <= k <= 30 -> 1 <= d <= k -> fft_level_int (2 ^ k) d = Ok tt.
Proof.
  intros Hk Hd. unfold fft_level_int.
  assert (H1 : 0 < 2 ^ d) by (apply Z.pow_pos_nonneg; lia).
  assert (H2 : 2 ^ d <= 2 ^ k) by (apply Z.pow_le_mono_r; lia).
  assert (H3 : 2 ^ k <= 2 ^ 30) by (apply Z.pow_le_mono_r; lia). change (2 ^ 30) with 1073741824 in H3.
  fits_by lia. destruct (Z.eqb_spec (2 ^ d) 0); [lia|]. cbn [negb assert bind].
  pose proof (Z.mul_div_le (2 ^ k) (2 ^ d) H1) as H4. pose proof (Z.div_pos (2 ^ k) (2 ^ d) ltac:(lia) H1) as H5.
  pose proof (Z.mul_div_le (2 ^ d) 2 ltac:(lia)) as H6. pose proof (Z.div_pos (2 ^ d) 2 ltac:(lia) ltac:(lia)) as H7.
  set (N := 2 ^ d) in *. set (G := 2 ^ k / N) in *. set (h := N / 2) in *.
  apply for_int_ok; [change (2 ^ 31) with 2147483648; nia|]. intros g Hg. fits_by nia.
  apply for_int_ok; [change (2 ^ 31) with 2147483648; lia|]. intros i Hi. now fits_by lia.
Qed.
Lemma fft_int_ok k : 0 <= k <= 30 -> fft_int (2 ^ k) = Ok tt.
Proof.
  intros Hk. unfold fft_int. rewrite Z.log2_pow2 by lia.
  apply for_int_ok; [change (2 ^ 31) with 2147483648; lia|]. intros i Hi. fits_by lia. apply fft_level_int_ok; lia.
Qed.

Lemma forward_schedule_int_ok nd s phase : 0 <= nd <= s -> s <= 24 -> 0 <= phase < 2 ^ s ->
  forward_schedule_int nd (2 ^ s) phase = Ok tt.
Proof.
  intros Hnd Hs Hph. unfold forward_schedule_int.
  assert (H3 : 2 ^ s <= 2 ^ 24) by (apply Z.pow_le_mono_r; lia). change (2 ^ 24) with 16777216 in H3.
  apply for_int_ok; [change (2 ^ 31) with 2147483648; lia|]. intros l Hl.
  assert (H1 : 0 < 2 ^ l) by (apply Z.pow_pos_nonneg; lia).
  assert (H2 : 2 ^ l <= 2 ^ s) by (apply Z.pow_le_mono_r; lia).
  fits_by lia. destruct (Z.eqb_spec (2 ^ l) 0); [lia|]. cbn [negb assert bind].
  pose proof (Z.div_le_lower_bound (2 ^ s) (2 ^ l) 1 H1 ltac:(lia)) as H4.
  pose proof (Z.div_le_upper_bound (2 ^ s) (2 ^ l) (2 ^ s) H1 ltac:(nia)) as H5.
  fits_by lia. destruct (_ <=? _); [|reflexivity]. destruct (Z.eqb_spec (2 ^ s / 2 ^ l) 0); [lia|]. cbn [negb assert bind].
  apply for_int_ok; [change (2 ^ 31) with 2147483648; lia|auto].
Qed.
Lemma inverse_schedule_int_ok nd s phase : 0 <= nd <= s -> s <= 24 -> inverse_schedule_int nd (2 ^ s) phase = Ok tt.
Proof.
  intros Hnd Hs. unfold inverse_schedule_int. fits_by lia.
  apply for_int_ok; [change (2 ^ 31) with 2147483648; lia|]. intros l Hl.
  assert (H1 : 0 < 2 ^ l) by (apply Z.pow_pos_nonneg; lia).
  assert (H2 : 2 ^ l <= 2 ^ 24) by (apply Z.pow_le_mono_r; lia). change (2 ^ 24) with 16777216 in H2.
  fits_by lia. destruct (Z.eqb_spec (2 ^ l) 0); [lia|]. cbn [negb assert bind].
  destruct (_ <? _); [|reflexivity]. apply for_int_ok; [change (2 ^ 31) with 2147483648; lia|auto].
Qed.

(** ** delay lines *)
Lemma fdl_next_int_ok (h n k : nat) : (h < n)%nat -> Z.of_nat n <= 16777216 ->
  reverse_wrap (Z.of_nat h - 1) (Z.of_nat n) = Ok k -> fdl_next_int (Z.of_nat h) (Z.of_nat n) = Ok (Z.of_nat k) /\ (k < n)%nat.
Proof.
  intros Hh Hn. unfold reverse_wrap, fdl_next_int. fits_by lia. destruct (Z.eqb_spec (Z.of_nat n) 0); [lia|]. cbn [negb assert bind].
  assert (Hr : - Z.of_nat n < Z.rem (Z.of_nat h - 1) (Z.of_nat n) < Z.of_nat n).
  { pose proof (Z.rem_bound_abs (Z.of_nat h - 1) (Z.of_nat n) ltac:(lia)). lia. }
  fits_by lia. set (x := Z.of_nat n + _) in *. pose proof (Z.rem_bound_pos x (Z.of_nat n) ltac:(unfold x; lia) ltac:(lia)) as Hb.
  destruct (Z.ltb_spec (Z.rem x (Z.of_nat n)) 0); [lia|]. intros E. injection E as <-. rewrite Z2Nat.id by lia. split; [reflexivity|lia].
Qed.

(** ** loops in step *)
Lemma while_sim {X Y} (rel : X -> Y -> Prop) cx cy bx by_ :
  (forall x y, rel x y -> cx x = cy y) ->
  (forall x y x', rel x y -> cx x = true -> bx x = Ok x' -> exists y', by_ y = Ok y' /\ rel x' y') ->
  forall fuel x y x', rel x y -> while_ fuel cx bx x = Ok x' -> exists y', while_ fuel cy by_ y = Ok y' /\ rel x' y'.
Proof.
  intros Hc Hb. induction fuel as [|fuel IH]; intros x y x' H E; cbn [while_] in *; rewrite <- (Hc _ _ H); destruct (cx x) eqn:Ec;
    try discriminate.
  - injection E as <-. eauto.
  - apply bind_inv in E as (x1 & E1 & E). destruct (Hb _ _ _ H Ec E1) as (y1 & F1 & H1). rewrite F1. cbn [bind]. eauto.
  - injection E as <-. eauto.
Qed.

Section Link.
  Context {A : arith} (R : rfft A).
  Local Open Scope nat_scope.

  Lemma chan_apply_len f o (src c c' : list (sample A)) : chan_apply f o src c = Ok c' -> length c' = length c.
  Proof.
    unfold chan_apply. destruct (Nat.leb_spec (o + length src) (length c)); [|discriminate]. intros E. injection E as <-.
    rewrite !app_length, zipw_length, !firstn_length, !skipn_length. lia.
  Qed.
  Lemma blk_apply_len f v : forall (b src b' : audio A), blk_apply f v b src = Ok b' -> map (@length _) b' = map (@length _) b.
  Proof.
    induction b as [|c b IH]; intros [|s src] b' E; cbn [blk_apply] in E; try (injection E as <-; reflexivity).
    apply bind_inv in E as (c' & E1 & E). apply bind_inv in E as (cs & E2 & E). injection E as <-. cbn [map].
    rewrite (chan_apply_len _ _ _ _ _ E1), (IH _ _ E2). reflexivity.
  Qed.
  Lemma samples_len (b b' : audio A) : map (@length _) b' = map (@length _) b -> num_samples b' = num_samples b.
  Proof. destruct b as [|c b], b' as [|c' b']; try discriminate; [reflexivity|]. cbn. congruence. Qed.
  Lemma copy_samples v (b src b' : audio A) : blk_copy_from v b src = Ok b' -> num_samples b' = num_samples b.
  Proof. intros E. apply samples_len. exact (blk_apply_len _ _ _ _ _ E). Qed.
  Lemma view_sub_inv v o n v' : view_sub v o n = Ok v' -> v' = {| v_start := v_start v + o; v_len := n |} /\ o < v_len v /\ o + n <= v_len v.
  Proof.
    unfold view_sub. destruct (Nat.ltb_spec o (v_len v)); [|discriminate]. cbn [assert bind].
    destruct (Nat.leb_spec (o + n) (v_len v)); [|discriminate]. cbn [assert bind]. intros E. injection E as <-. auto.
  Qed.
  Lemma fdl_put_keeps (f f' : fdl A) i b : fdl_put f i b = Ok f' -> fdl_head f' = fdl_head f /\ fdl_num_blocks f' = fdl_num_blocks f.
  Proof. unfold fdl_put. intros E. apply bind_inv in E as (k & _ & E). apply bind_inv in E as (l & _ & E). injection E as <-. auto. Qed.
  Lemma fdl_next_link (f f' : fdl A) : fdl_head f < fdl_num_blocks f -> (Z.of_nat (fdl_num_blocks f) <= 16777216)%Z -> fdl_next f = Ok f' ->
    fdl_next_int (Z.of_nat (fdl_head f)) (Z.of_nat (fdl_num_blocks f)) = Ok (Z.of_nat (fdl_head f')) /\
    fdl_head f' < fdl_num_blocks f' /\ fdl_num_blocks f' = fdl_num_blocks f.
  Proof.
    unfold fdl_next. intros Hh Hn E. apply bind_inv in E as (k & E1 & E). apply bind_inv in E as (u & _ & E). injection E as <-.
    destruct (fdl_next_int_ok _ _ _ Hh Hn E1). cbn [fdl_head fdl_num_blocks]. auto.
  Qed.
  Lemma umod_inv a b c : umod a b = Ok c -> b <> 0 /\ c = a mod b.
  Proof. unfold umod. destruct (Nat.eqb_spec b 0); [discriminate|]. intros E. split; [assumption|congruence]. Qed.
  Lemma usub_inv a b c : usub a b = Ok c -> b <= a /\ c = a - b.
  Proof. unfold usub. destruct (Nat.leb_spec b a); [|discriminate]. intros E. split; [assumption|congruence]. Qed.

  (** *** the uniform convolver *)
  Definition upcI (B P : nat) (u : upc A) : Prop :=
    u_partition u = B /\ u_discard u = B /\ length (u_filters u) = P /\ fdl_num_blocks (u_fdl u) = P /\
    fdl_head (u_fdl u) < P /\ u_collected u < B.
  Definition upc_ints (u : upc A) : Z * Z := (Z.of_nat (u_collected u), Z.of_nat (fdl_head (u_fdl u))).

  Lemma upc_begin_link B P (u u' : upc A) : (Z.of_nat P <= 16777216)%Z -> upcI B P u -> upc_begin_partition u = Ok u' ->
    upcI B P u' /\ u_collected u' = u_collected u /\
    fdl_next_int (Z.of_nat (fdl_head (u_fdl u))) (Z.of_nat P) = Ok (Z.of_nat (fdl_head (u_fdl u'))).
  Proof.
    intros HP (I1 & I2 & I3 & I4 & I5 & I6) E. unfold upc_begin_partition in E.
    apply bind_inv in E as (f & E1 & E). apply bind_inv in E as (cv & _ & E). apply bind_inv in E as ([hd x] & _ & E). injection E as <-.
    destruct (fdl_next_link (u_fdl u) f) as (F1 & F2 & F3); try assumption; [now rewrite I4|now rewrite I4|].
    rewrite I4 in F1, F3. rewrite F3 in F2. unfold upcI. cbn. repeat split; auto.
  Qed.

  Lemma upc_process_link B P (u u' : upc A) out out' : (Z.of_nat P <= 16777216)%Z -> (Z.of_nat B <= 4096)%Z -> upcI B P u ->
    (Z.of_nat (num_samples out) < 2147483648)%Z -> upc_process R u out = Ok (u', out') ->
    upc_process_int (Z.of_nat B) (Z.of_nat B) (Z.of_nat P) (Z.of_nat (num_samples out)) (upc_ints u) = Ok (upc_ints u') /\
    upcI B P u' /\ num_samples out' = num_samples out.
  Proof.
    intros HP HB HI Hn E. unfold upc_process in E. apply bind_inv in E as ([[u1 o1] p1] & E1 & E). injection E as <- <-.
    set (n := num_samples out) in *.
    set (rel := fun (x : upc A * audio A * nat) (y : Z * Z * Z) => let '(u, o, p) := x in
      upcI B P u /\ num_samples o = n /\ p <= n /\ y = (Z.of_nat (u_collected u), Z.of_nat (fdl_head (u_fdl u)), Z.of_nat p)).
    destruct (while_sim rel (fun st => snd st <? num_samples (snd (fst st))) (fun s => snd s <? Z.of_nat n)%Z (upc_round R)
      (upc_round_int (Z.of_nat B) (Z.of_nat B) (Z.of_nat P) (Z.of_nat n))) with (fuel := n) (x := (u, out, 0)) (x' := (u1, o1, p1))
      (y := (Z.of_nat (u_collected u), Z.of_nat (fdl_head (u_fdl u)), 0%Z)) as (y & Y1 & Y2).
    - intros [[a b] p] y (_ & Hb & _ & ->). cbn [fst snd]. rewrite Hb. destruct (Nat.ltb_spec p n), (Z.ltb_spec (Z.of_nat p) (Z.of_nat n)); try lia; reflexivity.
    - intros [[v o] p] y [[v' o'] p'] (I & Ho & Hp & ->) Hc Er. cbn [fst snd] in Hc. rewrite Ho in Hc. apply Nat.ltb_lt in Hc.
      unfold upc_round in Er. apply bind_inv in Er as (v1 & Ev & Er).
      assert (HV : upcI B P v1 /\ u_collected v1 = u_collected v /\
        (if Z.of_nat (u_collected v) =? 0 then head <- fdl_next_int (Z.of_nat (fdl_head (u_fdl v))) (Z.of_nat P) ;;
           _ <- for_int (Z.of_nat P) (fun _ => Ok tt) ;; Ok head else Ok (Z.of_nat (fdl_head (u_fdl v))))%Z = Ok (Z.of_nat (fdl_head (u_fdl v1)))).
      { destruct (Nat.eqb_spec (u_collected v) 0) as [Hz|Hz], (Z.eqb_spec (Z.of_nat (u_collected v)) 0); try lia.
        - destruct (upc_begin_link B P v v1 HP I Ev) as (J1 & J2 & J3). split; [exact J1|]. split; [exact J2|]. rewrite J3. cbn [bind].
          rewrite for_int_ok; [reflexivity| |auto]. change (2 ^ 31)%Z with 2147483648%Z. lia.
        - injection Ev as <-. auto. }
      destruct HV as ((I1 & I2 & I3 & I4 & I5 & I6) & V2 & V3). clear I Ev.
      apply bind_inv in Er as (av & Ea & Er). apply usub_inv in Ea as [Ea1 ->].
      apply bind_inv in Er as (fb & _ & Er). apply bind_inv in Er as (inp & _ & Er). apply bind_inv in Er as ([h1 sp1] & _ & Er).
      apply bind_inv in Er as (sv & _ & Er). apply bind_inv in Er as ([h2 sp2] & _ & Er). apply bind_inv in Er as (bk & _ & Er).
      apply bind_inv in Er as (bk2 & _ & Er). apply bind_inv in Er as (f & Ef & Er). apply bind_inv in Er as (f0 & _ & Er).
      apply bind_inv in Er as (i1 & _ & Er). apply bind_inv in Er as (i2 & _ & Er). apply bind_inv in Er as (bk3 & _ & Er).
      apply bind_inv in Er as (vw & Evw & Er). apply bind_inv in Er as (rs & _ & Er). apply bind_inv in Er as (o2 & Eo & Er).
      apply bind_inv in Er as (cl & Ecl & Er). injection Er as <- <- <-.
      apply copy_samples in Eo. apply umod_inv in Ecl as [Hb0 ->]. apply fdl_put_keeps in Ef as [Ef1 Ef2].
      apply view_sub_inv in Evw as (_ & _ & Hle). cbn [whole v_len] in Hle. rewrite Ho in *. rewrite I1, V2 in *.
      set (todo := Nat.min (n - p) (B - u_collected v)) in *.
      assert (Et : Z.min (Z.of_nat n - Z.of_nat p) (Z.of_nat B - Z.of_nat (u_collected v)) = Z.of_nat todo) by (unfold todo; lia).
      assert (todo <= B - u_collected v) by (unfold todo; lia).
      exists (Z.of_nat ((u_collected v + todo) mod B), Z.of_nat (fdl_head f), Z.of_nat (p + todo)). split.
      + unfold upc_round_int. cbv beta iota zeta. rewrite V3. cbn [bind]. fits_by lia. fits_by lia. rewrite Et. fits_by lia. fits_by lia. fits_by lia.
        destruct (Z.eqb_spec (Z.of_nat B) 0); [lia|]. cbn [negb assert bind]. rewrite Ef1.
        rewrite Nat2Z.inj_mod, !Nat2Z.inj_add. rewrite Z.rem_mod_nonneg by lia. reflexivity.
      + unfold rel, upcI. cbn. rewrite Ef1, Ef2. pose proof (Nat.mod_upper_bound (u_collected v + todo) B Hb0). repeat split; auto; lia.
    - unfold rel. repeat split; auto; try apply HI; lia.
    - exact E1.
    - destruct Y2 as (J1 & J2 & _ & ->). unfold upc_process_int. fits_by lia. cbn [upc_ints fst snd].
      rewrite Nat2Z.id. rewrite Y1. cbn [bind]. split; [reflexivity|]. split; [exact J1|exact J2].
  Qed.

  (** *** the time-distributed convolvers *)
  Definition tdI (B : nat) (t : tdupc A) : Prop :=
    (exists s, t_num_phases t = 2 ^ s /\ t_partition t = B * 2 ^ s /\ t_points t = 2 * (B * 2 ^ s) /\ 1 <= s <= 24 /\
       (Z.of_nat (2 ^ s * B) <= 16777216)%Z /\ t_nd t <= s /\ t_offset t + 2 * 2 ^ t_nd t <= 2 ^ s /\ t_phase t < 2 ^ s) /\
    (Z.of_nat (t_num_partitions t) <= 16777216)%Z /\ fdl_num_blocks (t_fdl t) = t_num_partitions t /\
    fdl_head (t_fdl t) < t_num_partitions t /\ (0 <= st_head (t_stages t) < 3)%Z.

  Lemma st_put_head (s s' : stages A) id b : st_put s id b = Ok s' -> st_head s' = st_head s.
  Proof. unfold st_put. intros E. apply bind_inv in E as (i & _ & E). apply bind_inv in E as (l & _ & E). injection E as <-. reflexivity. Qed.
  Lemma td_sub_keeps (t : tdupc A) f b f' b' : td_sub_transform t f b = Ok (f', b') -> fdl_head f' = fdl_head f /\ fdl_num_blocks f' = fdl_num_blocks f.
  Proof.
    unfold td_sub_transform, td_sub_transform_with. destruct (td_active t); [|intros E; injection E as <- <-; auto].
    intros E. apply bind_inv in E as ([f1 b1] & E1 & E). apply bind_inv in E as (b2 & _ & E). apply bind_inv in E as (b3 & _ & E). injection E as <- <-.
    destruct (_ =? 0).
    - apply bind_inv in E1 as (x1 & _ & E1). apply bind_inv in E1 as (x2 & _ & E1). apply bind_inv in E1 as (x3 & _ & E1).
      apply bind_inv in E1 as ([x4 x5] & _ & E1). apply bind_inv in E1 as (x6 & _ & E1). apply bind_inv in E1 as (x7 & E7 & E1).
      injection E1 as <- <-. now apply fdl_put_keeps in E7.
    - injection E1 as <- <-. auto.
  Qed.

  Definition td_heads (t : tdupc A) : Z * Z := (st_head (t_stages t), Z.of_nat (fdl_head (t_fdl t))).
  Lemma td_begin_link B (t t' : tdupc A) : tdI B t -> td_begin_partition t = Ok t' ->
    tdI B t' /\ t_phase t' = t_phase t /\ t_nd t' = t_nd t /\ t_points t' = t_points t /\ t_num_phases t' = t_num_phases t /\ t_offset t' = t_offset t /\
    t_num_partitions t' = t_num_partitions t /\
    (s <- int32 (st_head (t_stages t) + 1) ;; h <- fdl_next_int (Z.of_nat (fdl_head (t_fdl t))) (Z.of_nat (t_num_partitions t)) ;; Ok (Z.rem s 3, h))%Z
      = Ok (td_heads t').
  Proof.
    intros ((s & S1) & T1 & T2 & T3 & T4) E. unfold td_begin_partition in E.
    apply bind_inv in E as (a & _ & E). apply bind_inv in E as (s2 & E2 & E). apply bind_inv in E as (f & Ef & E).
    apply bind_inv in E as (x & _ & E). apply bind_inv in E as (f2 & Ef2 & E). injection E as <-.
    apply st_put_head in E2. destruct (fdl_put_keeps _ _ _ _ Ef2) as [F1 F2]. cbn [st_promote st_head] in E2.
    destruct (fdl_next_link (t_fdl t) f) as (F3 & F4 & F5); try assumption; [now rewrite T2|now rewrite T2|]. rewrite T2 in F3, F5. rewrite F5 in F4.
    assert (Hm : (0 <= Z.rem (st_head (t_stages t) + 1) 3 < 3)%Z) by (apply Z.rem_bound_pos; lia).
    split.
    { unfold tdI. cbn [td_with t_num_phases t_partition t_points t_nd t_offset t_phase t_num_partitions t_fdl t_stages]. rewrite F1, F2, E2.
      split; [exists s; exact S1|]. repeat split; auto; lia. }
    cbn [td_with t_num_phases t_partition t_points t_nd t_offset t_phase t_num_partitions t_fdl t_stages td_heads].
    repeat (split; [reflexivity|]). rewrite int32_ok by (unfold fits; change (2 ^ 31)%Z with 2147483648%Z; lia). cbn [bind].
    rewrite F3. cbn [bind]. unfold td_heads. cbn [td_with t_fdl t_stages]. now rewrite E2, F1.
  Qed.

  Lemma td_process_link e B (t t' : tdupc A) x y : B = 2 ^ e -> 5 <= e -> (Z.of_nat B <= 4096)%Z -> tdI B t -> td_process t x = Ok (t', y) ->
    td_calls_int (Z.of_nat (t_points t)) (Z.of_nat (t_num_phases t)) (Z.of_nat (t_offset t)) (Z.of_nat (t_nd t)) (Z.of_nat (t_num_partitions t))
      (st_head (t_stages t)) (Z.of_nat (fdl_head (t_fdl t))) (Z.of_nat (t_phase t)) = Ok (td_heads t') /\ tdI B t'.
  Proof.
    intros HBe He HB HI E. unfold td_process in E. apply bind_inv in E as (t1 & E1 & E).
    assert (H1 : tdI B t1 /\ t_phase t1 = t_phase t /\ t_nd t1 = t_nd t /\ t_points t1 = t_points t /\ t_num_phases t1 = t_num_phases t /\ t_offset t1 = t_offset t /\
      t_num_partitions t1 = t_num_partitions t /\
      (if Z.of_nat (t_phase t) =? 0 then
              s <- int32 (st_head (t_stages t) + 1) ;;
              h <- fdl_next_int (Z.of_nat (fdl_head (t_fdl t))) (Z.of_nat (t_num_partitions t)) ;;
              Ok (Z.rem s 3, h)
            else Ok (st_head (t_stages t), Z.of_nat (fdl_head (t_fdl t))))%Z = Ok (td_heads t1)).
    { destruct (Nat.eqb_spec (t_phase t) 0) as [Hz|Hz], (Z.eqb_spec (Z.of_nat (t_phase t)) 0); try lia.
      - now apply td_begin_link.
      - injection E1 as <-. repeat (split; [assumption || reflexivity|]). reflexivity. }
    clear E1. destruct H1 as (I1 & P1 & P2 & P3 & P4 & P5 & P6 & P7).
    apply bind_inv in E as (a & _ & E). apply bind_inv in E as (d1 & _ & E). apply bind_inv in E as (d2 & _ & E). apply bind_inv in E as (d3 & _ & E).
    apply bind_inv in E as (a2 & _ & E). apply bind_inv in E as (s1 & Es1 & E). apply bind_inv in E as (b & _ & E). apply bind_inv in E as (db & _ & E).
    apply bind_inv in E as ([f db2] & Ef & E). apply bind_inv in E as (b2 & _ & E). apply bind_inv in E as (s2 & Es2 & E). apply bind_inv in E as (c & _ & E).
    apply bind_inv in E as (dc & _ & E). apply bind_inv in E as (dc2 & _ & E). apply bind_inv in E as (c2 & _ & E). apply bind_inv in E as (s3 & Es3 & E).
    apply bind_inv in E as ([bl tl] & _ & E). apply bind_inv in E as (ph & Eph & E). injection E as <- <-.
    apply st_put_head in Es1, Es2, Es3. apply td_sub_keeps in Ef as [F1 F2]. apply umod_inv in Eph as [Hnz ->].
    assert (Hh : st_head s3 = st_head (t_stages t1)) by congruence.
    destruct I1 as ((s & S1 & S2 & S3 & S4 & S5 & S6 & S7 & S8) & T1 & T2 & T3 & T4).
    assert (HH : td_heads (td_with t1 ((t_phase t1 + 1) mod t_num_phases t1) f s3 tl) = td_heads t1).
    { unfold td_heads. cbn [td_with t_fdl t_stages]. now rewrite Hh, F1. }
    rewrite HH. split.
    - unfold td_calls_int. rewrite P7. cbn [bind fst td_heads].
      rewrite for_int_ok; [|change (2 ^ 31)%Z with 2147483648%Z; lia|].
      2:{ intros i Hi. rewrite int32_ok by (unfold fits; change (2 ^ 31)%Z with 2147483648%Z; lia). cbn [bind].
          rewrite int32_ok by (unfold fits; change (2 ^ 31)%Z with 2147483648%Z; lia). reflexivity. }
      cbn [bind]. rewrite <- P1, <- P2, <- P3, <- P4, <- P5, <- P6. rewrite S1, S3, !Nat2Z.inj_pow. change (Z.of_nat 2) with 2%Z.
      rewrite forward_schedule_int_ok; [| | |].
      2: lia. 2: lia. 2:{ split; [lia|]. apply Nat2Z.inj_lt in S8. now rewrite Nat2Z.inj_pow in S8. }
      cbn [bind]. assert (N1 : (0 < 2 ^ Z.of_nat (t_nd t1))%Z) by (apply Z.pow_pos_nonneg; lia).
      assert (N2 : (2 ^ Z.of_nat (t_nd t1) <= 2 ^ 24)%Z) by (apply Z.pow_le_mono_r; lia). change (2 ^ 24)%Z with 16777216%Z in N2.
      fits_by lia. fits_by lia.
      rewrite inverse_schedule_int_ok by lia.
      match goal with |- bind ?x _ = _ => assert (Ex : x = Ok tt) end.
      { destruct ((_ <=? _) && _)%Z eqn:Eact; [|reflexivity].
        assert (Ediv : (Z.of_nat (2 * (B * 2 ^ s)) / 2 ^ Z.of_nat (t_nd t1) = 2 ^ (Z.of_nat (1 + e + s - t_nd t1)))%Z).
        { replace (2 * (B * 2 ^ s)) with (2 ^ (1 + e + s)) by (rewrite HBe, !Nat.pow_add_r; cbn [Nat.pow]; lia).
          rewrite Nat2Z.inj_pow. change (Z.of_nat 2) with 2%Z.
          replace (Z.of_nat (1 + e + s)) with (Z.of_nat (1 + e + s - t_nd t1) + Z.of_nat (t_nd t1))%Z by lia.
          rewrite Z.pow_add_r by lia. apply Z.div_mul. lia. }
        rewrite Ediv. rewrite fft_int_ok; [cbn [bind]|].
        - apply for_int_ok; [change (2 ^ 31)%Z with 2147483648%Z; lia|auto].
        - split; [lia|]. assert (Hes : (2 ^ Z.of_nat (s + e) <= 2 ^ 24)%Z).
          { change (2 ^ 24)%Z with 16777216%Z. rewrite Nat2Z.inj_mul, HBe, !Nat2Z.inj_pow in S5. change (Z.of_nat 2) with 2%Z in S5. rewrite <- Z.pow_add_r in S5 by lia.
            rewrite Nat2Z.inj_add. exact S5. }
          apply Z.pow_le_mono_r_iff in Hes; lia. }
      rewrite Ex. cbn [bind]. reflexivity.
    - unfold tdI. cbn [td_with t_num_phases t_partition t_points t_nd t_offset t_phase t_num_partitions t_fdl t_stages]. rewrite F1, F2, Hh.
      split; [|repeat split; auto; lia]. exists s. pose proof (Nat.mod_upper_bound (t_phase t1 + 1) (t_num_phases t1) Hnz) as Hm. rewrite S1 in *. repeat split; auto; lia.
  Qed.
  Lemma td_reset_keeps B (t : tdupc A) : tdI B t -> tdI B (td_reset t).
  Proof. unfold tdI. cbn [td_reset td_with t_num_phases t_partition t_points t_nd t_offset t_phase t_num_partitions t_fdl t_stages fdl_clear fdl_head fdl_num_blocks st_clear st_head]. auto. Qed.

  (** *** groups of them *)
  Definition multiI (B : nat) (m : multi A) : Prop := forall t, In t (m_tdupcs m) -> tdI B t.
  Lemma in_upd {X} (l : list X) i v x : In x (upd l i v) -> x = v \/ In x l.
  Proof.
    revert i. induction l as [|a l IH]; intros [|i] H; cbn [upd] in H; try (destruct H; fail).
    - destruct H as [->|H]; [now left|right; now right].
    - destruct H as [->|H]; [right; now left|]. destruct (IH _ H); [now left|right; now right].
  Qed.
  Lemma set_inv {X} (l l' : list X) i v : set l i v = Ok l' -> l' = upd l i v.
  Proof. unfold set. destruct (i <? length l); [|discriminate]. intros E. congruence. Qed.
  Lemma get_in {X} (l : list X) i v : get l i = Ok v -> In v l.
  Proof. unfold get. destruct (nth_error l i) eqn:E; [|discriminate]. intros H. injection H as <-. now apply nth_error_In in E. Qed.
  Lemma for_keeps {St} (P : St -> Prop) body : (forall i s s', P s -> body i s = Ok s' -> P s') -> forall n a s s', P s -> for_from a n body s = Ok s' -> P s'.
  Proof.
    intros Hb. induction n as [|n IH]; intros a s s' Hs E; cbn [for_from] in E; [congruence|]. apply bind_inv in E as (s1 & E1 & E). eauto.
  Qed.
  Lemma multi_process_link e B (m m' : multi A) x y : B = 2 ^ e -> 5 <= e -> (Z.of_nat B <= 4096)%Z -> multiI B m -> multi_process m x = Ok (m', y) -> multiI B m'.
  Proof.
    intros HBe He HB HI E. unfold multi_process in E. apply bind_inv in E as ([ts bl] & E1 & E). injection E as <- <-. unfold multiI. cbn [m_tdupcs].
    change (forall t, In t (fst (ts, bl)) -> tdI B t).
    refine (for_keeps (fun st => forall t, In t (fst st) -> tdI B t) _ _ _ _ (m_tdupcs m, x) (ts, bl) HI E1).
    intros i [ts0 b0] [ts1 b1] H0 E0. cbn [fst] in *. apply bind_inv in E0 as (z & _ & E0). apply bind_inv in E0 as (t & Et & E0).
    apply bind_inv in E0 as ([t2 z2] & Ep & E0). apply bind_inv in E0 as (ts2 & Es & E0). apply bind_inv in E0 as (b2 & _ & E0). injection E0 as <- <-.
    apply set_inv in Es. subst ts2. intros t3 Hi. apply in_upd in Hi as [->|Hi]; [|auto].
    apply get_in in Et. exact (proj2 (td_process_link e B t t2 z z2 HBe He HB (H0 t Et) Ep)).
  Qed.
  Lemma run_subs_link e B : B = 2 ^ e -> 5 <= e -> (Z.of_nat B <= 4096)%Z -> forall (ms : list (multi A)) ds saved proc ring head ms' proc' ring',
    (forall m, In m ms -> multiI B m) -> nupc_run_subs ms ds saved proc ring head = Ok (ms', proc', ring') ->
    (forall m, In m ms' -> multiI B m) /\ length ms' = length ms.
  Proof.
    intros HBe He HB. induction ms as [|m ms IH]; intros ds saved proc ring head ms' proc' ring' HI E; cbn [nupc_run_subs] in E.
    - injection E as <- <- <-. auto.
    - destruct ds as [|d ds]; [discriminate|]. apply bind_inv in E as (p1 & _ & E). apply bind_inv in E as ([m1 p2] & Em & E).
      apply bind_inv in E as ([x1 x2] & _ & E). apply bind_inv in E as (r1 & _ & E). apply bind_inv in E as ([[ms1 p3] r2] & Er & E). injection E as <- <- <-.
      destruct (IH _ _ _ _ _ _ _ _ (fun q Hq => HI q (or_intror Hq)) Er) as [J1 J2]. split; [|cbn; now rewrite J2].
      intros q [<-|Hq]; [|auto]. exact (multi_process_link e B m m1 p1 p2 HBe He HB (HI m (or_introl eq_refl)) Em).
  Qed.

  (** *** the non-uniform convolver *)
  Definition nupcI (B P T : nat) (n : nupc A) : Prop :=
    n_block n = B /\ n_collected n < B /\ upcI B P (n_upc n) /\ (forall m, In m (n_tdupcs n) -> multiI B m) /\ length (n_tdupcs n) = T.
  Definition nupc_ints (n : nupc A) : Z * (Z * Z) := (Z.of_nat (n_collected n), upc_ints (n_upc n)).

  Lemma mapM_samples off len : forall (b b' : audio A), mapM (chan_sub off len) b = Ok b' -> length b' = length b /\ forall c, In c b' -> length c = len.
  Proof.
    induction b as [|c b IH]; intros b' E; cbn [mapM] in E.
    - injection E as <-. split; [reflexivity|intros c []].
    - apply bind_inv in E as (c1 & E1 & E). apply bind_inv in E as (b1 & E2 & E). injection E as <-.
      destruct (IH _ E2) as [L H]. split; [cbn; now rewrite L|]. intros x [<-|Hx]; [|auto].
      unfold chan_sub in E1. destruct (Nat.leb_spec (off + len) (length c)); [|discriminate]. injection E1 as <-.
      rewrite firstn_length, skipn_length. lia.
  Qed.
  Lemma read_samples (b b' : audio A) v : 0 < num_samples b -> view_read v b = Ok b' -> num_samples b' = v_len v.
  Proof.
    intros Hb E. destruct (mapM_samples _ _ _ _ E) as [L H]. destruct b as [|c b]; [cbn in Hb; lia|]. destruct b' as [|c' b']; [discriminate|].
    cbn. apply H. now left.
  Qed.

  Lemma nupc_process_link e B P T (n n' : nupc A) out out' : B = 2 ^ e -> 5 <= e -> (Z.of_nat P <= 16777216)%Z -> (Z.of_nat B <= 4096)%Z ->
    (Z.of_nat T <= 16777216)%Z -> nupcI B P T n -> (Z.of_nat (num_samples out) < 2147483648)%Z -> nupc_process R n out = Ok (n', out') ->
    nupc_process_int (Z.of_nat B) (Z.of_nat B) (Z.of_nat P) (Z.of_nat T) (Z.of_nat (num_samples out)) (nupc_ints n) = Ok (nupc_ints n') /\ nupcI B P T n' /\
    num_samples out' = num_samples out.
  Proof.
    intros HBe He HP HB HT HI Hn E. unfold nupc_process in E. apply bind_inv in E as ([[u1 o1] p1] & E1 & E). injection E as <- <-.
    set (N := num_samples out) in *.
    set (rel := fun (x : nupc A * audio A * nat) (y : Z * (Z * Z) * Z) => let '(u, o, p) := x in
      nupcI B P T u /\ num_samples o = N /\ p <= N /\ y = (Z.of_nat (n_collected u), upc_ints (n_upc u), Z.of_nat p)).
    destruct (while_sim rel (fun st => snd st <? num_samples (snd (fst st))) (fun s => snd s <? Z.of_nat N)%Z (nupc_round R)
      (nupc_round_int (Z.of_nat B) (Z.of_nat B) (Z.of_nat P) (Z.of_nat T) (Z.of_nat N))) with (fuel := N) (x := (n, out, 0)) (x' := (u1, o1, p1))
      (y := (Z.of_nat (n_collected n), upc_ints (n_upc n), 0%Z)) as (y & Y1 & Y2).
    - intros [[a b] p] y (_ & Hb & _ & ->). cbn [fst snd]. rewrite Hb. destruct (Nat.ltb_spec p N), (Z.ltb_spec (Z.of_nat p) (Z.of_nat N)); try lia; reflexivity.
    - intros [[v o] p] y [[v' o'] p'] ((I1 & I2 & I3 & I4 & I5) & Ho & Hp & ->) Hc Er. cbn [fst snd] in Hc. rewrite Ho in Hc. apply Nat.ltb_lt in Hc.
      unfold nupc_round in Er. rewrite I1 in Er. apply bind_inv in Er as (av & Ea & Er). apply usub_inv in Ea as [Ea1 ->].
      set (todo := Nat.min (num_samples o - p) (B - n_collected v)) in *.
      apply bind_inv in Er as (vw & Evw & Er). apply view_sub_inv in Evw as (-> & _ & Hle). cbn [whole v_len] in Hle.
      apply bind_inv in Er as (sub & Esub & Er). apply read_samples in Esub; [|lia]. cbn [v_len] in Esub.
      apply bind_inv in Er as (fill & Ef & Er). apply umod_inv in Ef as [Hb0 ->].
      apply bind_inv in Er as ([[[[ms sv] pr] rg] hd] & Es & Er). apply bind_inv in Er as ([u2 sub2] & Eu & Er).
      apply bind_inv in Er as ([rg2 sub3] & _ & Er). apply bind_inv in Er as (o2 & Eo & Er). injection Er as <- <- <-. apply copy_samples in Eo.
      assert (Et : Z.min (Z.of_nat N - Z.of_nat p) (Z.of_nat B - Z.of_nat (n_collected v)) = Z.of_nat todo) by (unfold todo; lia).
      assert (HtB : todo <= B - n_collected v) by (unfold todo; lia).
      destruct (upc_process_link B P (n_upc v) u2 sub sub2 HP HB I3) as (U1 & U2 & _); [rewrite Esub; lia|exact Eu|]. rewrite Esub in U1.
      assert (HM : (forall m, In m ms -> multiI B m) /\ length ms = T).
      { destruct (0 <? length (n_tdupcs v)); [|injection Es as <- <- <- <- <-; auto].
        apply bind_inv in Es as (vs & _ & Es). apply bind_inv in Es as (sv1 & _ & Es).
        destruct (_ =? 0); [|injection Es as <- <- <- <- <-; auto].
        apply bind_inv in Es as ([[ms1 pr1] rg1] & Er1 & Es). apply bind_inv in Es as ([h1 x1] & _ & Es). injection Es as <- <- <- <- <-.
        destruct (run_subs_link e B HBe He HB _ _ _ _ _ _ _ _ _ I4 Er1) as [J1 J2]. split; [exact J1|congruence]. }
      exists (Z.of_nat ((n_collected v + todo) mod B), upc_ints u2, Z.of_nat (p + todo)). split.
      + unfold nupc_round_int. cbv beta iota zeta. fits_by lia. fits_by lia. rewrite Et. fits_by lia.
        destruct (Z.eqb_spec (Z.of_nat B) 0); [lia|]. cbn [negb assert bind]. rewrite Z.rem_mod_nonneg by lia. rewrite <- Nat2Z.inj_add, <- Nat2Z.inj_mod.
        match goal with |- bind ?x _ = _ => assert (Ex : x = Ok tt) end.
        { destruct (_ && _)%bool; [|reflexivity]. apply for_int_ok; [change (2 ^ 31)%Z with 2147483648%Z; lia|auto]. }
        rewrite Ex. cbn [bind]. clear Ex. rewrite U1. cbn [bind].
        match goal with |- bind ?x _ = _ => assert (Ex : x = Ok tt) end.
        { destruct (_ <? _)%Z; [|reflexivity]. destruct (_ =? _)%Z; now fits_by lia. }
        rewrite Ex. cbn [bind]. fits_by lia. now rewrite <- Nat2Z.inj_add.
      + unfold rel, nupcI. cbn [n_block n_collected n_upc n_tdupcs]. pose proof (Nat.mod_upper_bound (n_collected v + todo) B Hb0).
        split; [split; [reflexivity|]; split; [assumption|]; split; [exact U2|exact HM]|]. split; [congruence|]. split; [lia|reflexivity].
    - unfold rel. split; [exact HI|]. repeat split; lia.
    - exact E1.
    - destruct Y2 as (J1 & J2 & _ & ->). unfold nupc_process_int. fits_by lia. unfold nupc_ints at 1 2. cbn [fst snd].
      rewrite Nat2Z.id. rewrite Y1. cbn [bind]. split; [reflexivity|]. split; [exact J1|exact J2].
  Qed.
  Lemma nupc_reset_keeps B P T (n : nupc A) : nupcI B P T n -> nupcI B P T (nupc_reset n).
  Proof.
    intros (I1 & I2 & (U1 & U2 & U3 & U4 & U5 & U6) & I4 & I5). unfold nupcI, upcI.
    cbn [nupc_reset n_block n_collected n_upc n_tdupcs upc_reset u_partition u_discard u_filters u_fdl u_collected fdl_clear fdl_head fdl_num_blocks].
    rewrite map_length. split; [assumption|]. split; [lia|]. split; [repeat split; auto; lia|]. split; [|assumption]. intros m Hm t Ht. apply in_map_iff in Hm as (m0 & <- & Hm). cbn [multi_reset m_tdupcs] in Ht.
    apply in_map_iff in Ht as (t0 & <- & Ht). apply td_reset_keeps. now apply (I4 m0).
  Qed.

  (** *** the convolver *)
  Definition convI (C B P T : nat) (c : convolver A) : Prop :=
    c_block c = B /\ c_channels c = C /\ map (@length _) (c_routing c) = repeat B C /\ nupcI B P T (c_nupc c).
  Definition conv_ints (c : convolver A) : Z * (Z * Z) := nupc_ints (c_nupc c).

  Lemma upd_len (l : audio A) i x : forall y, get l i = Ok y -> length x = length y -> map (@length _) (upd l i x) = map (@length _) l.
  Proof.
    unfold get. revert i. induction l as [|a l IH]; intros [|i] y H L; cbn [upd map nth_error] in *; try reflexivity.
    - injection H as <-. now rewrite L.
    - f_equal. eapply IH; eauto.
  Qed.
  Lemma route_in_len c (sub r r' : audio A) : conv_route_in c sub r = Ok r' -> map (@length _) r' = map (@length _) r.
  Proof.
    intros E. unfold conv_route_in, for_n in E.
    refine (for_keeps (fun x => map (@length _) x = map (@length _) r) _ _ _ _ r r' eq_refl E).
    intros i s s' Hs E0. apply bind_inv in E0 as (x1 & _ & E0). apply bind_inv in E0 as (x2 & _ & E0). apply bind_inv in E0 as (x3 & E3 & E0).
    apply bind_inv in E0 as (x4 & E4 & E0). apply set_inv in E0. subst s'. apply chan_apply_len in E4. rewrite <- Hs. now apply (upd_len s i x4 x3).
  Qed.
  Lemma clear_len (r : audio A) : map (@length _) (audio_clear r) = map (@length _) r.
  Proof. unfold audio_clear. rewrite map_map. apply map_ext. intros c. apply map_length. Qed.

  Lemma conv_process_link e C B P T (c c' : convolver A) out out' : B = 2 ^ e -> 5 <= e -> 0 < C -> (Z.of_nat C < 2147483648)%Z ->
    (Z.of_nat P <= 16777216)%Z -> (Z.of_nat B <= 4096)%Z ->
    (Z.of_nat T <= 16777216)%Z -> convI C B P T c -> (Z.of_nat (num_samples out) < 2147483648)%Z -> conv_process R c out = Ok (c', out') ->
    conv_process_int (Z.of_nat C) (Z.of_nat B) (Z.of_nat B) (Z.of_nat P) (Z.of_nat T) (Z.of_nat (num_samples out)) (conv_ints c) = Ok (conv_ints c') /\
    convI C B P T c'.
  Proof.
    intros HBe He HC0 HC HP HB HT HI Hn E. unfold conv_process in E. apply bind_inv in E as ([[u1 o1] p1] & E1 & E). injection E as <- <-.
    set (N := num_samples out) in *.
    set (rel := fun (x : convolver A * audio A * nat) (y : Z * (Z * Z) * Z) => let '(u, o, p) := x in
      convI C B P T u /\ num_samples o = N /\ p <= N /\ y = (fst (conv_ints u), snd (conv_ints u), Z.of_nat p)).
    match type of E1 with while_ _ _ _ (?x, _, _) = _ => set (c0 := x) in * end.
    destruct (while_sim rel (fun st => snd st <? num_samples (snd (fst st))) (fun s => snd s <? Z.of_nat N)%Z (conv_round R)
      (conv_round_int (Z.of_nat C) (Z.of_nat B) (Z.of_nat B) (Z.of_nat P) (Z.of_nat T) (Z.of_nat N))) with (fuel := N) (x := (c0, out, 0)) (x' := (u1, o1, p1))
      (y := (fst (conv_ints c0), snd (conv_ints c0), 0%Z)) as (y & Y1 & Y2).
    - intros [[a b] p] y (_ & Hb & _ & ->). cbn [fst snd]. rewrite Hb. destruct (Nat.ltb_spec p N), (Z.ltb_spec (Z.of_nat p) (Z.of_nat N)); try lia; reflexivity.
    - intros [[v o] p] y [[v' o'] p'] ((I1 & I2 & I3 & I4) & Ho & Hp & ->) Hc Er. cbn [fst snd] in Hc. rewrite Ho in Hc. apply Nat.ltb_lt in Hc.
      unfold conv_round in Er. rewrite I1 in Er. set (todo := Nat.min (num_samples o - p) B) in *.
      apply bind_inv in Er as (vw & Evw & Er). apply view_sub_inv in Evw as (-> & _ & Hle). cbn [whole v_len] in Hle.
      apply bind_inv in Er as (sub & _ & Er). apply bind_inv in Er as (rv & Erv & Er). apply view_sub_inv in Erv as (-> & Hr0 & Hle2). cbn [whole v_len v_start] in *.
      apply bind_inv in Er as (rs & Ers & Er). apply read_samples in Ers; [|lia]. cbn [v_len] in Ers.
      apply bind_inv in Er as (rs1 & Eri & Er). apply route_in_len, samples_len in Eri. rewrite Ers in Eri.
      apply bind_inv in Er as ([n1 rs2] & En & Er). apply bind_inv in Er as (rt & Ert & Er). apply blk_apply_len in Ert.
      apply bind_inv in Er as (sub2 & _ & Er). apply bind_inv in Er as (o2 & Eo & Er). injection Er as <- <- <-. apply copy_samples in Eo.
      assert (Et : Z.min (Z.of_nat N - Z.of_nat p) (Z.of_nat B) = Z.of_nat todo) by (unfold todo; lia).
      assert (HtB : todo <= B) by (unfold todo; lia).
      destruct (nupc_process_link e B P T (c_nupc v) n1 rs1 rs2 HBe He HP HB HT I4) as (U1 & U2 & _); [rewrite Eri; lia|exact En|]. rewrite Eri in U1.
      exists (fst (nupc_ints n1), snd (nupc_ints n1), Z.of_nat (p + todo)). split.
      + unfold conv_round_int. cbv beta iota zeta. fits_by lia. rewrite Et. rewrite for_int_ok; [|change (2 ^ 31)%Z with 2147483648%Z; lia|auto]. cbn [bind].
        unfold conv_ints. rewrite <- surjective_pairing. rewrite U1. cbn [bind]. fits_by lia. now rewrite <- Nat2Z.inj_add.
      + unfold rel, convI. cbn [c_block c_channels c_routing c_nupc]. split; [split; [first [assumption|reflexivity]|]; split; [assumption|]; split; [congruence|exact U2]|].
        split; [congruence|]. split; [lia|reflexivity].
    - unfold rel. split; [|repeat split; lia]. destruct HI as (I1 & I2 & I3 & I4). unfold convI, c0. cbn [c_block c_channels c_routing c_nupc].
      split; [assumption|]. split; [assumption|]. split; [now rewrite clear_len|exact I4].
    - exact E1.
    - destruct Y2 as (J1 & J2 & _ & ->). unfold conv_process_int. fits_by lia. change (conv_ints c) with (conv_ints c0).
      rewrite Nat2Z.id. rewrite Y1. cbn [bind]. rewrite <- surjective_pairing. split; [reflexivity|exact J1].
  Qed.
  Lemma conv_reset_keeps C B P T (c : convolver A) : convI C B P T c -> convI C B P T (conv_reset c).
  Proof.
    intros (I1 & I2 & I3 & I4). unfold convI. cbn [conv_reset c_block c_channels c_routing c_nupc]. rewrite clear_len.
    repeat (split; [assumption|]). now apply nupc_reset_keeps.
  Qed.
End Link.
