(** * C56: fades in single precision *)
From Coq Require Import Reals Lra.
From Flocq Require Import Core.
From Verif.Model Require Import Base Arith ArithSingle Juce Float32 SmoothedValue Convolver ConvolutionEngine.
From Verif.Spec Require Import Transform Signal Engine Rounded Precision.
From Verif.Proofs Require Import Lists Blocks Streams FloatProof FadeProof SmoothProof EngineProof EngineInv EngineFront
     EngineCalm EngineRoom EngineRun EngineFade EngineMore EngineLevels SingleProof SingleCompute.
From Verif.Props Require Import EngineProps FadeProps.
Local Open Scope nat_scope.

Section Begin.
  Context {pow : R * R -> nat -> R * R} (I : conv_if (SingleWith pow)) (w : nat) (ok : cv I -> Prop).
  Hypothesis Hw : 0 < w.
  Hypothesis HI : accepting I w ok.
  Lemma begins_fading M bd s a h n e : inv I w ok M bd e -> begins bd s a h n e ->
    exists p, fading I s bd a h p (v_in I (Z.of_nat n) e) (v_out I (Z.of_nat n) e) e.
  Proof.
    intros He ((R1 & R2 & R3 & R4) & Ha & Hh & Hf). destruct (e_commands I e) as [|h' t] eqn:Ec; [discriminate|]. injection Hh as ->.
    apply (fade_len_of I w ok M bd e h) in Hf; auto.
    destruct (takes_fading I bd t (start I bd h (front_of I e))) as (p & E & _); try (cbn; congruence).
    assert (T : takes I bd (h :: t) (front_of I e) = takes I bd t (start I bd h (front_of I e))).
    { cbn [takes fold_left]. unfold takes at 1. cbn [fold_left]. unfold take at 2. cbn [front_of f_conv f_fade]. rewrite Ha, R1. reflexivity. }
    exists p. split; rewrite Ec, T, E; cbn [with_pend f_conv f_fade f_strat f_in f_out f_pend]; unfold start; rewrite ?Hf; cbn; auto.
  Qed.
  Lemma start_of env l s e b : reached I w ok env l s e -> engine_bounds s = Ok b -> forall st a h n, begins b st a h n e ->
    0 < ps_max_block s /\ inv I w ok (ps_max_block s) b e /\ (0 < Z.of_nat n)%Z.
  Proof.
    intros HR Eb st a h n HB. destruct (reached_tracked I w ok Hw HI env l s e HR) as (Hsp & b' & Eb' & Hi). assert (b' = b) by congruence. subst b'.
    split; [apply Hsp|]. split; auto. destruct HB as (_ & _ & _ & B4).
    apply (fade_len_of I w ok (ps_max_block s) b e h) in B4; auto. pose proof (fade_len_pos I w Hw b h (bounds_positive w s b Hsp Eb)) as X. rewrite B4 in X. exact X.
  Qed.
  Lemma in_level n e : at_rest e -> (0 < Z.of_nat n)%Z -> forall t, gain (v_in I (Z.of_nat n) e) t = rising n t.
  Proof. intros HR Hn t. unfold v_in. rewrite gain_up by (auto; apply HR). now rewrite Nat2Z.id. Qed.
  Lemma out_level n e : at_rest e -> (0 < Z.of_nat n)%Z -> forall t, gain (v_out I (Z.of_nat n) e) t = falling n t.
  Proof. intros HR Hn t. unfold v_out. rewrite gain_down by (auto; apply HR). now rewrite Nat2Z.id. Qed.

  (** the exact levels *)
  Lemma cross_levels env l s e b : reached I w ok env l s e -> engine_bounds s = Ok b ->
    forall a h n, begins b kCrossfade a h n e -> forall bs, fits w (ps_max_block s) bs -> total (removelast bs) < n ->
    exists e' outs a' h' olds news, eng_run I e (map (Process I) bs) = Ok (e', outs) /\
      feed (cv_process I) (h_cv I a) bs = Ok (a', olds) /\ feed (cv_process I) (h_cv I h) bs = Ok (h', news) /\
      (forall c, c < w -> length (channel c olds) = total bs /\ length (channel c news) = total bs /\
         channel c outs = @blend (SingleWith pow) (falling n) (channel c olds) (rising n) (channel c news)) /\
      (n <= total bs -> e_conv I e' = Some (renew I h h')).
  Proof.
    intros HR Eb a h n HB bs Hf Hk. destruct (start_of env l s e b HR Eb _ _ _ _ HB) as (HM & Hi & Hn).
    destruct (begins_fading _ _ _ _ _ _ _ Hi HB) as (p & HF). pose proof (proj1 HB) as HRest.
    pose proof (v_in_count I w Hw (Z.of_nat n) e HRest Hn) as Ci. pose proof (v_out_count I w Hw (Z.of_nat n) e HRest Hn) as Co. rewrite Nat2Z.id in Ci, Co.
    destruct (cross_run I w ok Hw HI (ps_max_block s) b n _ _ HM Ci Co bs 0 a h p e Hf Hi HF Hk)
      as (e' & outs & a' & h' & p' & olds & news & E & _ & Fa & Fh & C & Q & _).
    exists e', outs, a', h', olds, news. split; auto. split; auto. split; auto. split.
    - intros c Hc. destruct (C c Hc) as (L1 & L2 & ->). split; auto. split; auto. apply blend_ext; intros t; cbn [Nat.add].
      + now apply out_level.
      + now apply in_level.
    - intros HT. rewrite (proj2 (Nat.ltb_ge _ _)) in Q by auto. apply Q.
  Qed.
  Lemma inout_levels env l s e b : reached I w ok env l s e -> engine_bounds s = Ok b ->
    forall a h n, begins b kInOut a h n e -> forall bs1 bs2, fits w (ps_max_block s) (bs1 ++ bs2) ->
    total (removelast bs1) < n -> (bs2 <> [] -> n <= total bs1) -> total (removelast bs2) < n ->
    exists e' outs1 outs2 a' h' olds news, eng_run I e (map (Process I) (bs1 ++ bs2)) = Ok (e', outs1 ++ outs2) /\
      feed (cv_process I) (h_cv I a) bs1 = Ok (a', olds) /\ feed (cv_process I) (h_cv I h) bs2 = Ok (h', news) /\
      (forall c, c < w -> length (channel c olds) = total bs1 /\ length (channel c news) = total bs2 /\
         channel c outs1 = @scaled (SingleWith pow) (falling n) (channel c olds) /\ channel c outs2 = @scaled (SingleWith pow) (rising n) (channel c news)) /\
      (n <= total bs2 -> e_conv I e' = Some (renew I h h')).
  Proof.
    intros HR Eb a h n HB bs1 bs2 Hf H1 H2 H3. destruct (start_of env l s e b HR Eb _ _ _ _ HB) as (HM & Hi & Hn).
    destruct (begins_fading _ _ _ _ _ _ _ Hi HB) as (p & HF). pose proof (proj1 HB) as HRest.
    pose proof (v_in_count I w Hw (Z.of_nat n) e HRest Hn) as Ci. pose proof (v_out_count I w Hw (Z.of_nat n) e HRest Hn) as Co. rewrite Nat2Z.id in Ci, Co.
    destruct (fits_app w (ps_max_block s) bs1 bs2 Hf) as [Hf1 Hf2].
    destruct (out_run I w ok Hw HI (ps_max_block s) b n _ _ HM ltac:(rewrite Ci; lia) Co bs1 0 a h p e Hf1 Hi HF H1)
      as (e1 & outs1 & a' & p1 & olds & E1 & I1 & Fa & C1 & Q1 & _).
    assert (G1 : forall c, c < w -> channel c outs1 = @scaled (SingleWith pow) (falling n) (channel c olds)).
    { intros c Hc. destruct (C1 c Hc) as (_ & ->). apply scaled_ext. intros t. now apply out_level. }
    assert (D : bs2 = [] \/ bs2 <> []) by (destruct bs2; [left|right]; [reflexivity|discriminate]).
    destruct D as [->|D].
    { exists e1, outs1, [], a', (h_cv I h), olds, []. rewrite !app_nil_r. split; auto. split; auto. split; [reflexivity|]. split.
      - intros c Hc. destruct (C1 c Hc). auto.
      - cbn. lia. }
    specialize (H2 D). cbn [Nat.add] in Q1.
    destruct (in_run I w ok Hw HI (ps_max_block s) b n (v_in I (Z.of_nat n) e) (sm_iter (total bs1) (v_out I (Z.of_nat n) e)) HM Ci ltac:(rewrite sm_iter_count; lia) bs2 0 (renew I a a') h p1 e1 Hf2 I1 Q1 H3)
      as (e2 & outs2 & h' & p2 & news & E2 & I2 & Fh & C2 & Q2 & _).
    exists e2, outs1, outs2, a', h', olds, news. rewrite map_app, run_app, E1. cbn [bind]. rewrite E2. cbn [bind].
    split; [reflexivity|]. split; auto. split; auto. split.
    - intros c Hc. destruct (C1 c Hc) as (X1 & _). destruct (C2 c Hc) as (X2 & ->). split; auto. split; auto. split; auto.
      apply scaled_ext. intros t. now apply in_level.
    - intros HT. cbn [Nat.add] in Q2. rewrite (proj2 (Nat.ltb_ge _ _)) in Q2 by auto. apply Q2.
  Qed.
End Begin.

Lemma two_u24 t : (INR (S t) * (2 * u24) = (INR t + 1) / 8388608)%R.
Proof. rewrite S_INR. unfold u24. lra. Qed.
Lemma pow_23 : (2 ^ 23 = 8388608)%R.
Proof. cbn. lra. Qed.
Lemma pow_148 : (4 * tiny <= / 2 ^ 148)%R.
Proof.
  unfold tiny. rewrite bpow_powerRZ. change (IZR radix2) with 2%R. cbn [powerRZ]. change (Pos.to_nat 150) with (2 + 148). rewrite pow_add, Rinv_mult. right. 
  replace (/ 2 ^ 2)%R with (/ 4)%R by (f_equal; ring). lra.
Qed.
Lemma pow_150 : (tiny <= / 2 ^ 150)%R.
Proof. unfold tiny. rewrite bpow_powerRZ. change (IZR radix2) with 2%R. right. reflexivity. Qed.
Lemma nth_blend pow (f g : nat -> R) (x y : list R) t : t < length y ->
  nth t (@blend (SingleWith pow) f x g y) 0%R = single (single (nth t x 0%R * f t) + single (nth t y 0%R * g t)).
Proof. intros H. unfold blend. exact (tab_nth _ _ _ _ H). Qed.
Lemma nth_scaled pow (f : nat -> R) (x : list R) t : t < length x -> nth t (@scaled (SingleWith pow) f x) 0%R = single (nth t x 0%R * f t).
Proof. intros H. unfold scaled. exact (tab_nth _ _ _ _ H). Qed.

(** ** C56 *)
(** A cross-fade over [n] samples (up to 2^22: 5 seconds at 768 kHz) in single precision.  At sample [t],
    what is heard is the mix of what the two convolvers make of the input in the proportion (t+1)/n, up to an
    error of (t+3) 2^-23 of their levels.  More convolvers may be delivered meanwhile ([env] is arbitrary). *)
Theorem C56_crossfade : forall pow (I : conv_if (SingleWith pow)) w ok, 0 < w -> accepting I w ok ->
  forall env l s e b, reached I w ok env l s e -> engine_bounds s = Ok b ->
  forall a h n, begins b kCrossfade a h n e -> n <= 2 ^ 22 ->
  forall bs, fits w (ps_max_block s) bs -> total (removelast bs) < n ->
  exists e' outs a' h' olds news,
    eng_run I e (map (Process I) bs) = Ok (e', outs) /\
    feed (cv_process I) (h_cv I a) bs = Ok (a', olds) /\ feed (cv_process I) (h_cv I h) bs = Ok (h', news) /\
    (forall c t, c < w -> t < total bs ->
       let old := nth t (channel c olds) 0%R in let new := nth t (channel c news) 0%R in
       (Rabs (nth t (channel c outs) 0 - mix (share n t) old new) <= (Rabs old + Rabs new) * ((INR t + 3) / 2 ^ 23) + / 2 ^ 148)%R) /\
    (n <= total bs -> e_conv I e' = Some {| h_id := h_id I h; h_cv := h' |}).
Proof.
  intros pow I w ok Hw HI env l s e b HR Eb a h n HB H22 bs Hf Hk.
  destruct (start_of I w ok Hw HI env l s e b HR Eb _ _ _ _ HB) as (_ & _ & Hn).
  destruct (cross_levels I w ok Hw HI env l s e b HR Eb a h n HB bs Hf Hk) as (e' & outs & a' & h' & olds & news & E & Fa & Fh & C & Q).
  exists e', outs, a', h', olds, news. split; auto. split; auto. split; auto. split; auto.
  intros c t Hc Ht old new. destruct (C c Hc) as (L1 & L2 & ->). rewrite (nth_blend pow) by exact (eq_ind_r (fun k => t < k) Ht L2). fold old new.
  assert (HN : 0 < n <= 2 ^ 22) by (split; [lia|exact H22]).
  pose proof (mixed_err old new (falling n t) (rising n t) (1 - share n t) (share n t) _ (falling_err n t HN) (rising_err n t HN) (falling_bound n t HN) (rising_bound n t HN)) as X.
  rewrite two_u24 in X. unfold mix. eapply Rle_trans; [exact X|]. apply Rplus_le_compat.
  - right. f_equal. rewrite pow_23. unfold u24. lra.
  - apply pow_148.
Qed.
(** An in/out fade.  [bs1] are the blocks up to and including the one in which the first half ends, [bs2] those
    after, until the end of the fade. *)
Theorem C56_in_out : forall pow (I : conv_if (SingleWith pow)) w ok, 0 < w -> accepting I w ok ->
  forall env l s e b, reached I w ok env l s e -> engine_bounds s = Ok b ->
  forall a h n, begins b kInOut a h n e -> n <= 2 ^ 22 ->
  forall bs1 bs2, fits w (ps_max_block s) (bs1 ++ bs2) ->
  total (removelast bs1) < n -> (bs2 <> [] -> n <= total bs1) -> total (removelast bs2) < n ->
  exists e' outs1 outs2 a' h' olds news,
    eng_run I e (map (Process I) (bs1 ++ bs2)) = Ok (e', outs1 ++ outs2) /\
    feed (cv_process I) (h_cv I a) bs1 = Ok (a', olds) /\ feed (cv_process I) (h_cv I h) bs2 = Ok (h', news) /\
    (forall c t, c < w -> t < total bs1 -> let old := nth t (channel c olds) 0%R in
       (Rabs (nth t (channel c outs1) 0 - old * (1 - share n t)) <= Rabs old * ((INR t + 2) / 2 ^ 23) + / 2 ^ 150)%R) /\
    (forall c t, c < w -> t < total bs2 -> let new := nth t (channel c news) 0%R in
       (Rabs (nth t (channel c outs2) 0 - new * share n t) <= Rabs new * ((INR t + 2) / 2 ^ 23) + / 2 ^ 150)%R) /\
    (n <= total bs2 -> e_conv I e' = Some {| h_id := h_id I h; h_cv := h' |}).
Proof.
  intros pow I w ok Hw HI env l s e b HR Eb a h n HB H22 bs1 bs2 Hf H1 H2 H3.
  destruct (start_of I w ok Hw HI env l s e b HR Eb _ _ _ _ HB) as (_ & _ & Hn).
  destruct (inout_levels I w ok Hw HI env l s e b HR Eb a h n HB bs1 bs2 Hf H1 H2 H3) as (e' & outs1 & outs2 & a' & h' & olds & news & E & Fa & Fh & C & Q).
  assert (HN : 0 < n <= 2 ^ 22) by (split; [lia|exact H22]).
  exists e', outs1, outs2, a', h', olds, news. split; auto. split; auto. split; auto. split; [|split; auto].
  - intros c t Hc Ht old. destruct (C c Hc) as (L1 & L2 & -> & _). rewrite (nth_scaled pow) by exact (eq_ind_r (fun k => t < k) Ht L1). fold old.
    pose proof (scaled_err old _ _ _ (falling_err n t HN) (falling_bound n t HN)) as X.
    rewrite two_u24 in X. eapply Rle_trans; [exact X|]. apply Rplus_le_compat; [right; f_equal; rewrite pow_23; unfold u24; lra|apply pow_150].
  - intros c t Hc Ht new. destruct (C c Hc) as (L1 & L2 & _ & ->). rewrite (nth_scaled pow) by exact (eq_ind_r (fun k => t < k) Ht L2). fold new.
    pose proof (scaled_err new _ _ _ (rising_err n t HN) (rising_bound n t HN)) as X.
    rewrite two_u24 in X. eapply Rle_trans; [exact X|]. apply Rplus_le_compat; [right; f_equal; rewrite pow_23; unfold u24; lra|apply pow_150].
Qed.

(** The computed levels, sample by sample (the values [getNextValue] returns): close to linear; monotonic until
    the last sample, where they are exactly 1 and 0; and exact when the length is a power of two. *)
Theorem C56_levels : forall pow n, 0 < n <= 2 ^ 22 -> exists rising falling : nat -> R,
  (forall (v : smooth (SingleWith pow)) m, sm_target v = false ->
     snd (sm_values m (sm_set_target true (sm_reset (Z.of_nat n) v))) = tab m rising) /\
  (forall (v : smooth (SingleWith pow)) m, sm_target v = true ->
     snd (sm_values m (sm_set_target false (sm_reset (Z.of_nat n) v))) = tab m falling) /\
  (forall t, (Rabs (rising t - share n t) <= (INR t + 1) / 2 ^ 23)%R /\
             (Rabs (falling t - (1 - share n t)) <= (INR t + 1) / 2 ^ 23)%R) /\
  (forall t, S (S t) < n -> (rising t <= rising (S t) /\ falling (S t) <= falling t)%R) /\
  (forall t, n <= S t -> rising t = 1%R /\ falling t = 0%R) /\
  (forall k, n = 2 ^ k -> forall t, rising t = share n t /\ falling t = (1 - share n t)%R).
Proof.
  intros pow n Hn. exists (rising n), (falling n). split; [|split; [|split; [|split; [|split]]]].
  - intros v m HT. rewrite sm_values_eq. cbn [snd]. apply tab_ext. intros i _. rewrite gain_up by (auto; lia). now rewrite Nat2Z.id.
  - intros v m HT. rewrite sm_values_eq. cbn [snd]. apply tab_ext. intros i _. rewrite gain_down by (auto; lia). now rewrite Nat2Z.id.
  - intros t. rewrite pow_23, <- two_u24. split; [now apply rising_err|now apply falling_err].
  - intros t Ht. unfold rising, falling. rewrite !(proj2 (Nat.ltb_lt _ _)) by lia. split; [apply up_rises|apply down_falls]; lia.
  - intros t Ht. unfold rising, falling. rewrite !(proj2 (Nat.ltb_ge _ _)) by lia. auto.
  - intros k Hk t. assert (K : k <= 22). { apply (Nat.pow_le_mono_r_iff 2); [lia|]. rewrite <- Hk. apply Hn. }
    unfold rising, falling. destruct (Nat.ltb_spec (S t) n) as [Ht|Ht].
    + rewrite share_lt by auto. rewrite Hk in *. split; [apply up_exact|apply down_exact]; lia.
    + rewrite share_ge by lia. split; [reflexivity|]. ring.
Qed.

(** ** Overshoot *)
(** 48 kHz, one channel, blocks of up to 512 samples *)
Definition spec48 : process_spec := {| ps_rate_num := 48000; ps_rate_den := 1; ps_max_block := 512; ps_channels := 1 |}.
Example bounds48 : engine_bounds spec48 =
  Ok {| lower_fade_bound := 4800; upper_fade_bound := 192000; max_crossfade_ir_length := 480000; in_out_fade_length := 19200 |}%Z.
Proof. vm_compute. reflexivity. Qed.
Lemma spec48_ok : spec_ok 1 spec48.
Proof. unfold spec_ok, rate_ok. cbn [spec48 ps_rate_num ps_rate_den ps_max_block ps_channels]. split; [reflexivity|]. split; [apply Nat.ltb_lt; reflexivity|]. lia. Qed.
(** two convolvers have been delivered; the next block begins a fade from one to the other *)
Definition before (A : arith) (x : sample A) (st : fade_strategy) : list (op (toy A)) :=
  let I := toy A in let h i := toy_held A i x 50%Z st in
  [Prepare I spec48; Others I [Deliver I (h 1)]; Process I [[x; x]]; Others I [Deliver I (h 2)]].
Lemma before_ok A (x : sample A) st : let I := toy A in let h i := toy_held A i x 50%Z st in
  exists e b, reached I 1 (fun _ => True) [] (before A x st) spec48 e /\ engine_bounds spec48 = Ok b /\ no_loads e /\
    begins b st (h 1) (h 2) (Z.to_nat (match st with kCrossfade => 4800 | kInOut => 19200 end)) e /\
    exists o, eng_run I (eng_new I []) (before A x st) = Ok (e, [o]) /\ num_samples o = 2.
Proof.
  intros I h.
  assert (HR : exists e outs, eng_run I (eng_new I []) (before A x st) = Ok (e, [outs]) /\ num_samples outs = 2 /\ e_env I e = [] /\ at_rest e /\ e_conv I e = Some (h 1) /\ e_commands I e = [h 2]).
  { eexists _, _. split; [vm_compute; reflexivity|]. repeat split. }
  destruct HR as (e & outs & E & En & Ee & H1 & H2 & H3). exists e. eexists. split; [|split; [exact bounds48|split; [|split]]].
  - split; [constructor|]. split; [|split; [reflexivity|eauto]]. split; [exact spec48_ok|]. split; [intros ? ?; exact Logic.I|].
    split; [|split; [intros ? ?; exact Logic.I|exact Logic.I]]. exists 512, 2. split; [reflexivity|]. split; [apply Nat.leb_le; reflexivity|]. split; auto. intros c [<-|[]]. reflexivity.
  - intros y Hy. rewrite Ee in Hy. destruct Hy.
  - split; auto. split; auto. split; [change (e_commands (toy A) e) with (e_commands I e); rewrite H3; reflexivity|].
    rewrite Z2Nat.id by (destruct st; lia). destruct st; vm_compute; reflexivity.
  - eauto.
Qed.
(** The hypotheses of the theorems are met: cross-fades of 4800, in/out fades of 19200 samples *)
Example C56_hypotheses : forall st, exists l e b a h n,
  reached (toy Single) 1 (fun _ => True) [] l spec48 e /\ engine_bounds spec48 = Ok b /\ begins b st a h n e /\ 1000 < n /\ n <= 2 ^ 22.
Proof.
  intros st. destruct (before_ok Single 1%R st) as (e & b & HR & Eb & _ & HB & _).
  exists (before Single 1%R st), e, b. eexists _, _, _. split; [exact HR|]. split; [exact Eb|]. split; [exact HB|].
  split; [destruct st; lia|]. apply Nat2Z.inj_le. rewrite Nat2Z.inj_pow. destruct st; lia.
Qed.

(** "A fade is never louder than the sounds it is made of" is false in single precision: at 48 kHz, the next to
    last level of the rising half of an in/out fade is computed as 1.000103..., and that of the falling half
    as a negative number.  Here two convolvers that return their input are exchanged; the input is 1; and what
    comes out is above 1 at one moment, and below 0 at another. *)
Definition ones48 : list (audio Single) := repeat [repeat 1%R 512] 38.
Definition overshoot : list (op (toy Single)) := before Single 1%R kInOut ++ map (Process (toy Single)) (ones48 ++ ones48).
Lemma toy_ones m k : forall c' os, feed (cv_process (toy Single)) (1%R, 50%Z, kInOut) (repeat [repeat 1%R m] k) = Ok (c', os) ->
  forall x, In x (channel 0 os) -> x = 1%R.
Proof.
  induction k as [|k IH]; intros c' os H x Hx; cbn [repeat feed cv_process toy bind] in H.
  - injection H as _ <-. destruct Hx.
  - destruct (feed _ _ (repeat _ k)) as [[c2 o2]| |] eqn:E2; cbn [bind] in H; try discriminate. injection H as _ <-.
    rewrite channel_cons in Hx. apply in_app_iff in Hx. destruct Hx as [Hx|Hx]; [|eapply IH; eauto].
    cbn [map nth] in Hx. apply in_map_iff in Hx. destruct Hx as (y & <- & Hy). apply repeat_spec in Hy. subst y.
    cbn [fst smul Single]. rewrite Rmult_1_l. apply single_1.
Qed.
Theorem C56_overshoot_refuted :
  legal (toy Single) 1 (fun _ => True) None overshoot /\
  (forall acts h, In (Others (toy Single) acts) overshoot -> In (Deliver (toy Single) h) acts -> forall b,
     cv_process (toy Single) (h_cv (toy Single) h) b = Ok (h_cv (toy Single) h, map (map (fun x => single (1 * x))) b)) /\
  (forall b ch x, In (Process (toy Single) b) overshoot -> In ch b -> In x ch -> x = 1%R) /\
  exists e outs, eng_run (toy Single) (eng_new (toy Single) []) overshoot = Ok (e, outs) /\
    (exists t, nth t (channel 0 outs) 0 = 8389475 / 8388608)%R /\
    (exists t, nth t (channel 0 outs) 0 = - 14208163 / 137438953472)%R.
Proof.
  destruct (before_ok Single 1%R kInOut) as (e & b & HR & Eb & _ & HB & o & Eo & Ho). cbv zeta in HB.
  set (n := Z.to_nat 19200) in *. assert (HF : fits 1 512 (ones48 ++ ones48)).
  { intros x Hx. exists 512. split; [lia|]. apply in_app_iff in Hx. unfold ones48 in Hx. assert (Hx' : In x (repeat [repeat 1%R 512] 38)) by tauto.
    apply repeat_spec in Hx'. subst x. split; [reflexivity|]. intros c [<-|[]]. apply repeat_length. }
  assert (T1 : total (removelast ones48) = Z.to_nat 18944) by (vm_compute; reflexivity).
  assert (T2 : total ones48 = Z.to_nat 19456) by (vm_compute; reflexivity).
  assert (T1' : total (removelast ones48) < n) by (rewrite T1; unfold n; lia).
  assert (T2' : ones48 <> [] -> n <= total ones48) by (intros _; rewrite T2; unfold n; lia).
  destruct (inout_levels (toy Single) 1 (fun _ => True) ltac:(lia) (toy_accepting Single 1) [] _ spec48 e b HR Eb _ _ _ HB ones48 ones48 HF T1' T2' T1')
    as (e' & outs1 & outs2 & a' & h' & olds & news & E & Fa & Fh & C & _).
  change (SingleWith (fun z _ => z)) with Single in *.
  split; [|split; [|split]].
  - destruct HR as (_ & HL & HS & _). unfold overshoot. apply legal_app; auto.
    change (@None nat) with (option_map ps_max_block None). rewrite prepared_last, HS. now apply fits_legal.
  - intros acts h HI HD. unfold overshoot in HI. apply in_app_iff in HI. destruct HI as [HI|HI].
    + cbn in HI. intros bb. destruct HI as [HI|[HI|[HI|[HI|[]]]]]; try discriminate HI; injection HI as <-; destruct HD as [HD|[]]; injection HD as <-; reflexivity.
    + apply in_map_iff in HI. destruct HI as (? & HI & _). discriminate HI.
  - intros bb ch x HI H1 H2. unfold overshoot in HI. apply in_app_iff in HI. destruct HI as [HI|HI].
    + cbn in HI. destruct HI as [HI|[HI|[HI|[HI|[]]]]]; try discriminate HI. injection HI as <-. destruct H1 as [<-|[]]. destruct H2 as [<-|[<-|[]]]; reflexivity.
    + apply in_map_iff in HI. destruct HI as (y & HI & Hy). injection HI as <-. apply in_app_iff in Hy.
      assert (Hy' : In y (repeat [repeat 1%R 512] 38)) by (unfold ones48 in Hy; tauto). apply repeat_spec in Hy'. subst y.
      destruct H1 as [<-|[]]. now apply repeat_spec in H2.
  - exists e', ([o] ++ outs1 ++ outs2). split.
    { unfold overshoot. rewrite run_app, Eo. cbn [bind]. rewrite E. reflexivity. }
    assert (NW : forall c' os, feed (cv_process (toy Single)) (1%R, 50%Z, kInOut) ones48 = Ok (c', os) -> forall t, t < total ones48 -> nth t (channel 0 os) 0%R = 1%R).
    { intros c' os H t Ht. apply (toy_ones 512 38 _ _ H). apply nth_In.
      destruct (feed_ok (toy Single) 1 (fun _ => True) ltac:(lia) (toy_accepting Single 1) 512 ones48 (1%R, 50%Z, kInOut)) as (c2 & o2 & E2 & _ & HL); auto.
      { intros z Hz. exists 512. split; [lia|]. apply repeat_spec in Hz. subst z. split; [reflexivity|]. intros c [<-|[]]. apply repeat_length. }
      rewrite H in E2. injection E2 as <- <-. rewrite (HL 0) by lia. exact Ht. }
    destruct (C 0 ltac:(lia)) as (L1 & L2 & C1 & C2). rewrite !channel_app.
    assert (LO : length (channel 0 [o]) = 2).
    { unfold channel. cbn [map concat]. rewrite app_nil_r. destruct o as [|c0 ?]; [discriminate Ho|]. exact Ho. }
    assert (LC : length (channel 0 outs1) = Z.to_nat 19456) by (rewrite C1, scaled_length; rewrite <- T2; exact L1).
    assert (T3 : Z.to_nat 19198 < total ones48) by (rewrite T2; lia).
    assert (W : S (Z.to_nat 19198) = Z.to_nat 19199) by lia.
    split.
    + exists (2 + (Z.to_nat 19456 + Z.to_nat 19198)). rewrite app_nth2 by (rewrite LO; lia). rewrite LO.
      replace (2 + (Z.to_nat 19456 + Z.to_nat 19198) - 2) with (Z.to_nat 19456 + Z.to_nat 19198) by lia.
      rewrite app_nth2 by (rewrite LC; lia). rewrite LC. replace (Z.to_nat 19456 + Z.to_nat 19198 - Z.to_nat 19456) with (Z.to_nat 19198) by lia.
      rewrite C2. refine (eq_trans (nth_scaled _ _ _ _ _) _); [exact (eq_ind_r (fun k => Z.to_nat 19198 < k) T3 L2)|].
      refine (eq_trans (f_equal (fun z => single (z * rising n (Z.to_nat 19198))) (NW _ _ Fh _ T3)) _). cbv beta. rewrite Rmult_1_l. unfold rising. rewrite (proj2 (Nat.ltb_lt _ _)) by (unfold n; lia). rewrite W. unfold n. rewrite up_fixed. apply up_19200.
    + exists (2 + Z.to_nat 19198). rewrite app_nth2 by (rewrite LO; lia). rewrite LO.
      replace (2 + Z.to_nat 19198 - 2) with (Z.to_nat 19198) by lia. rewrite app_nth1 by (rewrite LC; lia).
      rewrite C1. refine (eq_trans (nth_scaled _ _ _ _ _) _); [exact (eq_ind_r (fun k => Z.to_nat 19198 < k) T3 L1)|].
      refine (eq_trans (f_equal (fun z => single (z * falling n (Z.to_nat 19198))) (NW _ _ Fa _ T3)) _). cbv beta. rewrite Rmult_1_l. unfold falling. rewrite (proj2 (Nat.ltb_lt _ _)) by (unfold n; lia). rewrite W. unfold n. rewrite down_fixed. apply down_19200.
Qed.
Print Assumptions C56_crossfade.
Print Assumptions C56_in_out.
Print Assumptions C56_levels.
Print Assumptions C56_overshoot_refuted.
