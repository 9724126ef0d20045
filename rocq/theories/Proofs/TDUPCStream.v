(** * The time-distributed UPC over a whole input stream, with resets *)
From Verif.Model Require Import Base Arith Juce ComplexBuffer FFT FFTDecomposition
     DecompositionSchedule FrequencyDelayLine TimeDistributedUPC.
From Verif.Spec Require Import Transform Buffers Signal.
From Verif.Proofs Require Import Lists ComplexAlg Butterfly FFTProof Decomp Schedule Blocks Delay
     RealFFTProof Streams UPCProof.

From Verif.Proofs Require Import TDUPCProof.

Section Reset.
  Context {A : arith} (Z : zero_laws A).
  Variables (b s n off K fc : nat) (h : nat -> sample A).
  Hypothesis (Hn : n <= s) (Hoff : off + 2 ^ S n <= 2 ^ s) (HK : 0 < K).
  Notation B := (2 ^ b).
  Notation P := (2 ^ (s + b)).
  Notation k := (S (s + b)).
  Notation N := (2 ^ S (s + b)).

  (** the shape of a convolver, whatever it holds *)
  Definition td_shape (p : nat) (t : tdupc A) : Prop :=
    td_static b s n off K fc h t /\ t_phase t = p /\ p < 2 ^ s /\
    (exists la lb lc, length la = N /\ length lb = N /\ length lc = N /\
       st_rep (t_stages t) (buf1 b s la) (buf1 b s lb) (buf1 b s lc)) /\
    (exists lf, (forall i, i < K -> length (lf i) = N) /\ fdl_rep K (t_fdl t) (fun i => buf1 b s (lf i))) /\
    length (t_tail t) = P.

  Lemma at_shape x m p t : td_at b s n off K fc h x m p t -> td_shape p t.
  Proof.
    intros (Hph & [(-> & Hst & (gc & Lgc & Hs) & Hf & Ht)|(Hp & Hst & (da & Lda & _ & _ & Hs) & Hf & Ht)]).
    - split; auto. split; auto. split; [apply pow2_pos|]. split; [|split].
      + do 3 eexists. split; [|split; [|split; [exact Lgc|exact Hs]]].
        * apply decomp_length; [lia|apply Xb_length].
        * eapply U_length; eauto.
      + exists (fun i => dif k (Xb k P x m (i + 2))). split; auto. intros. apply dif_length, Xb_length.
      + rewrite Ht. apply tab_length.
    - split; auto. split; auto. split; [lia|]. split; [|split].
      + do 3 eexists. split; [exact Lda|]. split; [apply tab_length|]. split; [|exact Hs].
        apply ist_length. eapply U_length; eauto.
      + exists (fun i => if i =? 0 then tab N (slot b s n x m (act n off p)) else dif k (Xb k P x m (S i))).
        split.
        * intros i Hi. destruct (i =? 0); [apply tab_length|apply dif_length, Xb_length].
        * eapply fdl_rep_ext; [exact Hf|]. intros i Hi. unfold slots. now destruct (i =? 0).
      + rewrite Ht. apply tab_length.
  Qed.

  (** what is needed of a silent state *)
  Definition td_silent (p : nat) (t : tdupc A) : Prop :=
    td_static b s n off K fc h t /\ t_phase t = p /\ p < 2 ^ s /\
    st_rep (t_stages t) (buf1 b s (zer N)) (buf1 b s (zer N)) (buf1 b s (zer N)) /\
    fdl_rep K (t_fdl t) (fun i => buf1 b s (zer N)) /\ t_tail t = tab P (fun _ => s0).

  Lemma reset_silent p t : td_shape p t -> td_silent p (td_reset t).
  Proof.
    intros (Hst & Hph & Hp & (la & lb & lc & La & Lb & Lc & Hs) & (lf & Llf & Hf) & Ht).
    split; [exact Hst|]. split; [exact Hph|]. split; [exact Hp|]. unfold td_reset.
    cbn [td_with t_stages t_fdl t_tail]. split; [|split].
    - apply st_clear_rep in Hs. rewrite !cb_clear_buf1 in Hs by auto. exact Hs.
    - apply fdl_clear_rep in Hf. eapply fdl_rep_ext; [exact Hf|]. intros i Hi. cbv beta.
      now rewrite cb_clear_buf1 by auto.
    - rewrite map_const_repeat, Ht. apply repeat_tab.
  Qed.

  Lemma silent_at x p t : td_silent p t -> (forall i, i < p * B -> x i = s0) ->
    td_at b s n off K fc h x 0 p t.
  Proof.
    intros (Hst & Hph & Hp & Hs & Hf & Ht) Hx.
    pose proof (N2P b s) as HN2.
    assert (X0 : forall i, 0 < i -> Xb k P x 0 i = zer N).
    { intros i Hi. apply tab_ext. intros q Hq. unfold xw. bcase; auto.
      rewrite ago_before by nia. reflexivity. }
    assert (G0 : forall i q, 0 < i -> q < N -> Gv k P K h x 0 i q = c0).
    { intros i q Hi Hq. apply (csum_zer Z). intros r Hr.
      rewrite X0 by lia. rewrite (dif_zer Z), zer_nth. apply (cmul_0w Z). }
    assert (Y0 : forall i t, 0 < i -> Zv k P K h x 0 i t = s0).
    { intros i q Hi. unfold Zv. rewrite (tab_ext N _ (fun _ => c0)) by (intros; now apply G0).
      change (tab N (fun _ : nat => @c0 A)) with (@zer A N). rewrite (idif_zer Z), zer_nth. reflexivity. }
    assert (U0 : forall i, 0 < i -> U b s n K h x 0 i = zer N).
    { intros i Hi. unfold U. rewrite (tab_ext N _ (fun _ => c0)) by (intros; now apply G0).
      pose proof (sub_all b s n off K Hn Hoff HK) as Hall. pose proof (sub_pos b s n).
      apply list_tab with (d := c0).
      - pose proof (U_length b s n off K h x Hn Hoff HK 0 i) as E. unfold U in E.
        rewrite (tab_ext N _ (fun _ => c0)) in E by (intros; now apply G0). exact E.
      - intros q Hq.
        assert (Hq2 : q / 2 ^ (k - n) < 2 ^ n) by (apply Nat.div_lt_upper_bound; lia).
        rewrite slice_nth with (len := 2 ^ (k - n)); auto.
        + rewrite (nth_indep _ [] (idif (k - n) [])) by (rewrite map_length, chop_length; auto).
          rewrite map_nth, chop_nth by auto.
          assert (q / 2 ^ (k - n) * 2 ^ (k - n) + 2 ^ (k - n) <= N) by nia.
          rewrite tab_skipn, tab_firstn, Nat.min_l by lia.
          change (tab (2 ^ (k - n)) (fun _ : nat => @c0 A)) with (@zer A (2 ^ (k - n))).
          rewrite (idif_zer Z). apply zer_nth.
        + intros y Hy. apply in_map_iff in Hy as (z & <- & Hz). apply idif_length.
          eapply chop_in; [|exact Hz]. rewrite tab_length. lia.
        + rewrite map_length, chop_length. lia. }
    split; [exact Hph|]. destruct (Nat.eq_dec p 0) as [Ep|Np].
    - left. split; auto. split; auto. split; [|split].
      + exists (zer N). split; [apply zer_length|]. rewrite X0, U0 by lia.
        rewrite (decomp_zer Z) by lia. exact Hs.
      + eapply fdl_rep_ext; [exact Hf|]. intros i Hi. cbv beta. rewrite X0 by lia. now rewrite (dif_zer Z).
      + rewrite Ht. apply tab_ext. intros q Hq. symmetry. apply Y0; lia.
    - right. split; [lia|]. split; auto. split; [|split].
      + exists (zer N). split; [apply zer_length|]. split.
        { apply (J_zero Z); [auto|apply Xb_length|lia|].
          assert (p * B <= P) by (apply pB; lia).
          intros q Hq. unfold early in Hq. unfold Xb, xw. rewrite tab_nth by lia. bcase; try lia; auto.
          rewrite (ago_now x _ _ q) by lia. rewrite Hx by lia. reflexivity. }
        split; [intros; apply zer_nth|]. rewrite U0 by lia.
        rewrite (ist_zer Z b n s p : ist b n s p (zer N) = zer N).
        replace (tab N (bst b s n K h x 0 (act n off p))) with (@zer A N); [exact Hs|].
        apply tab_ext. intros q Hq. unfold bst. rewrite U0, zer_nth by lia.
        rewrite G0 by (auto; lia). unfold Dv. rewrite X0, (decomp_zer Z), zer_nth by lia.
        repeat match goal with |- context [if ?c then _ else _] => destruct c end; reflexivity.
      + eapply fdl_rep_ext; [exact Hf|]. intros i Hi. cbv beta. unfold slots.
        rewrite X0 by lia. rewrite (dif_zer Z). destruct (i =? 0); auto.
        unfold buf1. do 2 f_equal. apply tab_ext. intros q Hq. unfold slot.
        rewrite X0, (dif_zer Z), zer_nth by lia. destruct (_ <=? _); reflexivity.
      + rewrite Ht. apply tab_ext. intros q Hq. rewrite !Y0 by lia. destruct (_ <? _); reflexivity.
  Qed.

  (** ** running.  [p0] is the phase at time 0. *)
  Definition phase_at (p0 T : nat) : nat := ((T + p0 * B) / B) mod 2 ^ s.

  Definition td_stream (p0 : nat) (x : nat -> sample A) (T : nat) (t : tdupc A) : Prop :=
    exists m p, T + p0 * B = m * P + p * B /\ p < 2 ^ s /\
                td_at b s n off K fc h (fun i => ago x i (p0 * B)) m p t.

  Lemma phase_at_eq p0 T m p : T + p0 * B = m * P + p * B -> p < 2 ^ s -> phase_at p0 T = p.
  Proof.
    intros E Hp. unfold phase_at. rewrite E.
    assert (EP : P = 2 ^ s * B) by now rewrite Nat.pow_add_r.
    replace (m * P + p * B) with ((m * 2 ^ s + p) * B) by nia.
    rewrite Nat.div_mul by apply Nat.pow_nonzero, Nat.neq_succ_0.
    rewrite Nat.add_comm, Nat.mod_add by (apply Nat.pow_nonzero, Nat.neq_succ_0).
    now apply Nat.mod_small.
  Qed.

  Lemma stream_static p0 x T t : td_stream p0 x T t ->
    td_static b s n off K fc h t /\ t_phase t = phase_at p0 T.
  Proof.
    intros (m & p & ET & Hp & Hat). rewrite (phase_at_eq _ _ _ _ ET Hp).
    apply at_shape in Hat. split; apply Hat.
  Qed.

  Lemma silent_stream x p t : td_silent p t -> td_stream p x 0 t.
  Proof.
    intros Hsil. exists 0, p. assert (Hp : p < 2 ^ s) by apply Hsil. split; [lia|]. split; auto.
    apply silent_at; auto. intros i Hi. now apply ago_before.
  Qed.

  (** the output at time [t], in any arithmetic *)
  Definition tdy (p0 : nat) (x : nat -> sample A) (t : nat) : sample A :=
    let x' := fun i => ago x i (p0 * B) in
    sadd (Zv k P K h x' ((t + p0 * B) / P) 2 ((t + p0 * B) mod P))
         (Zv k P K h x' ((t + p0 * B) / P) 3 (P + (t + p0 * B) mod P)).

  Lemma stream_process_any p0 x T t :
    td_stream p0 x T t ->
    exists t', td_process t (tab B (fun i => x (T + i))) = Ok (t', tab B (fun i => tdy p0 x (T + i))) /\
               td_stream p0 x (T + B) t'.
  Proof.
    intros (m & p & ET & Hp & Hat).
    destruct (process_ok b s n off K fc h (fun i => ago x i (p0 * B)) Hn Hoff HK m p t
                         (tab B (fun i => x (T + i)))) as (t' & E & H'); auto.
    { apply tab_length. }
    { intros i Hi. rewrite tab_nth by auto. symmetry. apply ago_now. lia. }
    exists t'. assert (EP : P = 2 ^ s * B) by now rewrite Nat.pow_add_r. split.
    - rewrite E. do 2 f_equal. apply tab_ext. intros i Hi. unfold tdy.
      replace (T + i + p0 * B) with (p * B + i + m * P) by lia.
      pose proof (pow2_pos (s + b)). assert (p * B + i < P) by nia.
      rewrite Nat.div_add, Nat.mod_add, Nat.div_small, Nat.mod_small by lia. reflexivity.
    - destruct (Nat.eqb_spec (p + 1) (2 ^ s)).
      + exists (m + 1), 0. split; [nia|]. split; [apply pow2_pos|exact H'].
      + exists m, (p + 1). split; [nia|]. split; [lia|exact H'].
  Qed.

  (** in exact arithmetic: the convolution, two partitions late *)
  Lemma tdy_exact (L : arith_laws A) p0 x t : tdy p0 x t = ago (fir (K * P) h x) t (2 * P).
  Proof.
    unfold tdy. pose proof (pow2_pos (s + b)) as HP0.
    set (q := (t + p0 * B) mod P). set (m := (t + p0 * B) / P).
    assert (Hq : q < P) by (apply Nat.mod_upper_bound; lia).
    assert (E : t + p0 * B = m * P + q) by (unfold m, q; pose proof (Nat.div_mod (t + p0 * B) P ltac:(lia)); lia).
    rewrite (machine_exact b s n off K h _ Hn Hoff HK L) by auto. rewrite <- E.
    unfold ago at 1. destruct (Nat.leb_spec (2 * P) (t + p0 * B)).
    - rewrite (fir_delay L). unfold ago. bcase; try lia; auto. f_equal. lia.
    - rewrite ago_before by lia. reflexivity.
  Qed.

  Lemma stream_process (L : arith_laws A) p0 x T t :
    td_stream p0 x T t ->
    exists t', td_process t (tab B (fun i => x (T + i)))
               = Ok (t', tab B (fun i => ago (fir (K * P) h x) (T + i) (2 * P))) /\ td_stream p0 x (T + B) t'.
  Proof.
    intros H. destruct (stream_process_any p0 x T t H) as (t' & E & H'). exists t'. split; auto.
    rewrite E. do 2 f_equal. apply tab_ext. intros. now apply tdy_exact.
  Qed.

  Lemma stream_reset p0 x T t x' : td_stream p0 x T t -> td_stream (phase_at p0 T) x' 0 (td_reset t).
  Proof.
    intros (m & p & ET & Hp & Hat). rewrite (phase_at_eq _ _ _ _ ET Hp).
    apply silent_stream, reset_silent. eapply at_shape; eauto.
  Qed.

  Lemma make_silent (filters : list (cbuf A)) :
    length filters = K ->
    (forall r, r < K -> cb_read (nth r filters (cb_make 0 0)) fc = Ok (dif k (Hb k P h r))) ->
    td_silent 0 (td_make B (2 ^ s) filters fc off n).
  Proof.
    intros Hlen Hfil. unfold td_make.
    assert (EP : B * 2 ^ s = P) by (rewrite Nat.pow_add_r; lia). rewrite EP.
    apply reset_silent. unfold td_shape, td_static.
    cbn [t_partition t_points t_num_phases t_nd t_num_partitions t_offset t_filter_channel t_filters t_phase t_stages t_fdl t_tail].
    split; [repeat split; auto|]. split; auto. split; [apply pow2_pos|].
    split; [|split].
    - exists (zer N), (zer N), (zer N). do 3 (split; [apply zer_length|]).
      apply st_make_rep.
    - exists (fun _ => zer N). split; [intros; apply zer_length|]. rewrite Hlen.
      exact (fdl_make_rep 1 K (2 * P) HK).
    - apply repeat_length.
  Qed.
End Reset.
