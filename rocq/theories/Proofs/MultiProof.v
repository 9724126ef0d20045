(** * TimeDistributedUPCMulti: construction, schedule, running *)
From Verif.Model Require Import Base Arith Juce Float32 ComplexBuffer FFT FFTDecomposition
     DecompositionSchedule FrequencyDelayLine Partitioning TimeDistributedUPC TimeDistributedUPCMulti.
From Verif.Spec Require Import Transform Buffers Signal.
From Verif.Proofs Require Import Lists ComplexAlg Butterfly FFTProof Decomp Schedule Blocks Delay
     FloatProof RealFFTProof Streams UPCProof TDUPCProof TDUPCStream.

(** ** the powers of two in a number *)
Lemma largest_pow2 n : 0 < n -> exists g, LargestPowerOf2In n = 2 ^ g /\ 0 < 2 ^ g <= n.
Proof.
  intros Hn. exists (Nat.log2 n). unfold LargestPowerOf2In. destruct (Nat.eqb_spec n 0); [lia|].
  split; auto. split; [apply pow2_pos|]. apply Nat.log2_spec. lia.
Qed.

Definition sum (l : list nat) : nat := fold_right Nat.add 0 l.

Lemma powers_ok : forall fuel n, n <= fuel ->
  exists l, powers_loop fuel n = Ok l /\ sum l = n /\ (forall p, In p l -> exists g, p = 2 ^ g).
Proof.
  induction fuel; intros n Hn; cbn [powers_loop].
  - assert (n = 0) by lia. subst. exists []. cbn. repeat split; auto. intros p [].
  - destruct (Nat.ltb_spec 0 n).
    + destruct (largest_pow2 n H) as (g & -> & Hg). destruct (IHfuel (n - 2 ^ g)) as (l & -> & Hs & Hp); [lia|].
      exists (2 ^ g :: l). cbn [bind sum fold_right]. fold (sum l). split; auto. split; [lia|].
      intros p [<-|Hin]; eauto.
    + exists []. cbn. repeat split; auto; [lia|]. intros p [].
Qed.


(** multiples of [2^e] modulo [2^s] leave room for [2^e] more *)
Lemma mod_room c e s : e <= s -> (c * 2 ^ e) mod 2 ^ s + 2 ^ e <= 2 ^ s.
Proof.
  intros He. replace s with (e + (s - e)) by lia. rewrite Nat.pow_add_r.
  rewrite (Nat.mul_comm c), Nat.mul_mod_distr_l by (apply Nat.pow_nonzero; lia).
  pose proof (Nat.mod_upper_bound c (2 ^ (s - e)) ltac:(apply Nat.pow_nonzero; lia)). nia.
Qed.

Section Multi.
  Context {A : arith} (Z : zero_laws A).
  Variables (b s : nat).
  Hypothesis (Hs : 0 < s).
  Notation B := (2 ^ b).
  Notation P := (2 ^ (s + b)).
  Notation k := (S (s + b)).
  Notation N := (2 ^ S (s + b)).

  (** ** filter partitions *)
  Lemma multi_filter_ok (seg : audio A) m r :
    0 < length seg -> shaped (length seg) m seg -> r * P < m ->
    multi_filter P seg r
    = Ok {| cb_points := 2 * P;
            cb_data := tab (length seg) (fun c => dif k (Hb k P (fun j => nth j (nth c seg []) s0) r)) |}.
  Proof.
    intros Hl Hsh Hr. unfold multi_filter.
    assert (Eseg : seg = mk (length seg) m (fun c j => nth j (nth c seg []) s0)) by now apply shaped_eq.
    set (n := length seg) in *.
    assert (Ens : num_samples seg = m) by (rewrite Eseg; now apply num_samples_mk).
    rewrite Ens. unfold usub. destruct (Nat.leb_spec (r * P) m); [|lia]. cbn [bind].
    set (len := Nat.min P (m - r * P)).
    assert (EB : blk_sub seg (r * P) len = Ok (mk n len (fun c j => nth (r * P + j) (nth c seg []) s0))).
    { rewrite Eseg at 1. apply blk_sub_mk; lia. }
    eapply bind_eq; [exact EB|]. rewrite cb_make_cmk, cb_clear_cmk.
    eapply bind_eq; [apply cb_copy_cmk; auto|].
    set (h := fun c q => nth q (nth c seg []) s0).
    assert (EH : forall c, c < n ->
              tab (2 * P) (fun i => if i <? Nat.min (2 * P) len then creal (nth (r * P + i) (nth c seg []) s0) else @c0 A)
              = Hb k P (h c) r).
    { intros c Hc. unfold Hb. rewrite N2P. apply tab_ext. intros q Hq. unfold hw, h. bcase; auto; try lia.
      rewrite (nth_overflow (nth c seg [])); [reflexivity|].
      assert (Hl' : length (nth c seg []) = m) by (apply Hsh, nth_In; auto). lia. }
    set (D := fun t => {| cb_points := 2 * P;
                cb_data := tab n (fun c => if c <? t then dif k (Hb k P (h c) r) else Hb k P (h c) r) |}).
    transitivity (for_n n (fun channel flt =>
      ch <- cb_read flt channel ;; ch <- ForwardFFTUnordered (2 * P) ch ;; cb_write flt channel ch) (D 0)).
    { f_equal. unfold D, cmk. f_equal. unfold mk. apply tab_ext. intros c Hc. cbn [Nat.ltb Nat.leb]. now apply EH. }
    rewrite (for_n_seq D).
    - unfold D. do 2 f_equal. apply tab_ext. intros c Hc. bcase; auto; lia.
    - intros c Hc. unfold D at 1. unfold cb_read. cbn [cb_data]. rewrite get_tab by auto. cbn [bind].
      rewrite Nat.ltb_irrefl.
      pose proof (@ForwardFFTUnordered_dif A k (Hb k P (h c) r) [] (tab_length _ _)) as E.
      rewrite !app_nil_r, N2P in E. rewrite E. cbn [bind]. unfold cb_write, D. cbn [cb_data cb_points].
      rewrite set_tab by auto. cbn [bind]. do 2 f_equal. apply tab_ext. intros i Hi.
      destruct (Nat.eqb_spec i c); subst; bcase; auto; lia.
  Qed.

  Lemma log2_half : Nat.log2 (2 ^ s / 2) = s - 1.
  Proof.
    replace s with (S (s - 1)) at 1 by lia. rewrite Nat.pow_succ_r', Nat.mul_comm, Nat.div_mul by lia.
    apply Nat.log2_pow2. lia.
  Qed.
  Lemma half_pos : 0 < 2 ^ s / 2.
  Proof.
    replace s with (S (s - 1)) by lia. rewrite Nat.pow_succ_r', Nat.mul_comm, Nat.div_mul by lia. apply pow2_pos.
  Qed.

  Definition tdd : tdupc A := td_make 0 0 [] 0 0 0.

  Lemma multi_group_ok irch (filters : list (cbuf A)) co g :
    0 < irch ->
    multi_group B (2 ^ s) irch filters co (2 ^ g)
    = Ok (tab (2 ^ g) (fun c => td_make B (2 ^ s) filters ((c + co) mod irch)
                                  ((c * 2 ^ S (s - 1 - g)) mod 2 ^ s) (s - 1 - g))).
  Proof.
    intros Hir. unfold multi_group, multi_nd. rewrite assert_true by (apply Nat.ltb_lt, half_pos). cbn [bind].
    rewrite log2_half, Nat.log2_pow2 by lia.
    rewrite seq_tab. apply mapM_tab. intros c Hc. cbn [Nat.add]. unfold umod.
    destruct (Nat.eqb_spec (2 ^ s) 0) as [E|_]; [pose proof (pow2_pos s); lia|]. cbn [bind].
    destruct (Nat.eqb_spec irch 0); [lia|]. cbn [bind].
    now replace (s - 1 - g + 1) with (S (s - 1 - g)) by lia.
  Qed.

  Lemma multi_groups_ok irch (filters : list (cbuf A)) : 0 < irch -> forall powers co,
    (forall p, In p powers -> exists g, p = 2 ^ g) ->
    exists ts, multi_groups B (2 ^ s) irch filters co powers = Ok ts /\ length ts = sum powers /\
      forall c, c < sum powers -> exists off nd, nd <= s /\ off + 2 ^ S nd <= 2 ^ s /\
        nth c ts tdd = td_make B (2 ^ s) filters ((co + c) mod irch) off nd.
  Proof.
    intros Hir. induction powers as [|p ps IH]; intros co Hp.
    - exists []. cbn. repeat split; auto. lia.
    - destruct (Hp p (or_introl eq_refl)) as (g & ->).
      destruct (IH (co + 2 ^ g)) as (ts & E & Hlen & Hts). { intros q Hq. apply Hp. now right. }
      eexists. split; [|split].
      + cbn [multi_groups]. rewrite multi_group_ok by auto. cbn [bind]. rewrite E. reflexivity.
      + rewrite app_length, tab_length, Hlen. reflexivity.
      + cbn [sum fold_right]. fold (sum ps). intros c Hc. rewrite nth_app', tab_length.
        destruct (Nat.ltb_spec c (2 ^ g)).
        * rewrite tab_nth by auto. exists ((c * 2 ^ S (s - 1 - g)) mod 2 ^ s), (s - 1 - g).
          split; [lia|]. split; [apply mod_room; lia|]. now rewrite (Nat.add_comm co c).
        * destruct (Hts (c - 2 ^ g)) as (off & nd & H1 & H2 & H3); [lia|]. exists off, nd.
          repeat split; auto. rewrite H3. do 2 f_equal. lia.
  Qed.

  (** ** running *)
  Definition multi_stream (n K : nat) (h : nat -> nat -> sample A) (off nd : nat -> nat) (p0 : nat)
             (x : nat -> nat -> sample A) (T : nat) (m : multi A) : Prop :=
    length (m_tdupcs m) = n /\
    forall c, c < n -> nd c <= s /\ off c + 2 ^ S (nd c) <= 2 ^ s /\
      exists fc, td_stream b s (nd c) (off c) K fc (h c) p0 (x c) T (nth c (m_tdupcs m) tdd).

  Lemma multi_process_any n K h off nd p0 x T m : 0 < K ->
    multi_stream n K h off nd p0 x T m ->
    exists m', multi_process m (mk n B (fun c i => x c (T + i)))
               = Ok (m', mk n B (fun c i => tdy b s K (h c) p0 (x c) (T + i))) /\
               multi_stream n K h off nd p0 x (T + B) m'.
  Proof.
    intros HK [Hlen Hts]. unfold multi_process. rewrite mk_length.
    set (inp := fun c i => x c (T + i)).
    set (out := fun c i => tdy b s K (h c) p0 (x c) (T + i)).
    set (blk := fun c => (tab n (fun j => tab B (if j <? c then out j else inp j)) : audio A)).
    set (Inv := fun c (st : list (tdupc A) * audio A) =>
      length (fst st) = n /\ snd st = blk c /\
      forall j, j < n -> nd j <= s /\ off j + 2 ^ S (nd j) <= 2 ^ s /\ exists fc,
        td_stream b s (nd j) (off j) K fc (h j) p0 (x j) (if j <? c then T + B else T) (nth j (fst st) tdd)).
    match goal with |- context [for_n n ?bd _] =>
      destruct (for_from_inv Inv bd 0 n) with (s := (m_tdupcs m, mk n B inp)) as ((ts' & blk') & E & HI) end.
    - intros c [ts bl] [_ Hc] (H1 & H2 & H3). cbn [fst snd] in *. subst bl.
      destruct (H3 c Hc) as (N1 & N2 & fc & N3). rewrite Nat.ltb_irrefl in N3.
      destruct (stream_process_any b s _ _ K fc (h c) N1 N2 HK p0 (x c) T _ N3) as (t' & E & Hn').
      exists (upd ts c t', blk (S c)). split.
      + eapply bind_eq; [unfold blk; apply get_tab; auto|].
        eapply bind_eq; [apply get_ok with (d := tdd); lia|]. rewrite Nat.ltb_irrefl. unfold inp at 1.
        eapply bind_eq; [exact E|]. cbv beta iota.
        eapply bind_eq; [apply set_ok; lia|].
        eapply bind_eq; [apply set_tab; auto|]. do 2 f_equal. apply tab_ext. intros j Hj.
        destruct (Nat.eqb_spec j c); subst; bcase; auto; lia.
      + unfold Inv. cbn [fst snd]. split; [rewrite upd_length; auto|]. split; auto. intros j Hj.
        destruct (Nat.eq_dec j c) as [->|Hjc].
        * rewrite upd_nth_same by lia. destruct (Nat.ltb_spec c (S c)); [|lia]. eauto 8.
        * rewrite upd_nth_other by auto. destruct (H3 j Hj) as (M1 & M2 & fc' & M3).
          do 2 (split; auto). exists fc'.
          replace (j <? S c) with (j <? c); auto. bcase; auto; lia.
    - split; auto.
    - destruct HI as (I1 & I2 & I3). cbn [fst snd] in *. subst blk'.
      exists {| m_tdupcs := ts'; m_filters := m_filters m |}. split.
      + eapply bind_eq; [exact E|]. cbv beta iota. do 2 f_equal. unfold blk, mk. apply tab_ext.
        intros j Hj. cbn [Nat.add]. bcase; auto; lia.
      + split; auto. intros c Hc. cbn [m_tdupcs]. destruct (I3 c Hc) as (M1 & M2 & fc & M3).
        do 2 (split; auto). exists fc. cbn [Nat.add] in M3. destruct (Nat.ltb_spec c n); [auto|lia].
  Qed.

  (** in exact arithmetic *)
  Lemma multi_process_ok (L : arith_laws A) n K h off nd p0 x T m : 0 < K ->
    multi_stream n K h off nd p0 x T m ->
    exists m', multi_process m (mk n B (fun c i => x c (T + i)))
               = Ok (m', mk n B (fun c i => ago (fir (K * P) (h c) (x c)) (T + i) (2 * P))) /\
               multi_stream n K h off nd p0 x (T + B) m'.
  Proof.
    intros HK H. destruct (multi_process_any n K h off nd p0 x T m HK H) as (m' & E & H').
    exists m'. split; auto. rewrite E. do 2 f_equal. apply mk_ext. intros c i Hc Hi.
    destruct H as [_ H]. destruct (H c Hc) as (H1 & H2 & _). eapply tdy_exact; eauto.
  Qed.

  Lemma multi_reset_ok n K h off nd p0 x T m x' : 0 < K ->
    multi_stream n K h off nd p0 x T m -> multi_stream n K h off nd (phase_at b s p0 T) x' 0 (multi_reset m).
  Proof.
    intros HK [Hlen Hts]. unfold multi_reset. split; cbn [m_tdupcs]; [now rewrite map_length|].
    intros c Hc. destruct (Hts c Hc) as (M1 & M2 & fc & M3). do 2 (split; auto). exists fc.
    rewrite (nth_indep _ tdd (td_reset tdd)) by (rewrite map_length; lia). rewrite map_nth.
    eapply stream_reset; eauto.
  Qed.

  (** ** construction *)
  Definition moff (mu : multi A) (c : nat) : nat := t_offset (nth c (m_tdupcs mu) tdd).
  Definition mnd (mu : multi A) (c : nat) : nat := t_nd (nth c (m_tdupcs mu) tdd).

  Lemma multi_make_ok n (seg : audio A) m :
    0 < length seg -> shaped (length seg) m seg -> 0 < m -> (Z.of_nat m <= 2 ^ 24)%Z ->
    exists K mu, 0 < K /\ (m <= K * P /\ (K - 1) * P < m) /\ multi_make n B (2 ^ s) seg = Ok mu /\
      (forall x, multi_stream n K (ir_fun seg) (moff mu) (mnd mu) 0 x 0 mu) /\
      exists filters powers, GetPowersOf2In n = Ok powers /\
        multi_groups B (2 ^ s) (length seg) filters 0 powers = Ok (m_tdupcs mu).
  Proof.
    intros Hl Hsh Hm H24. unfold multi_make.
    assert (Ens : num_samples seg = m).
    { rewrite (shaped_eq _ _ _ s0 Hsh). now apply num_samples_mk. }
    rewrite Ens. replace (2 ^ s * B) with P by (rewrite Nat.pow_add_r; lia).
    pose proof (pow2_pos (s + b)) as HP. rewrite num_partitions_exact by lia. cbn [bind].
    pose proof (zceil_spec (Z.of_nat m) (Z.of_nat P) ltac:(lia)) as HZ.
    set (K := Z.to_nat (zceil (Z.of_nat m) (Z.of_nat P))).
    assert (HKz : (0 < zceil (Z.of_nat m) (Z.of_nat P))%Z) by nia.
    assert (HK : 0 < K) by lia. assert (HKm : m <= K * P) by nia. assert (HKl : (K - 1) * P < m) by nia.
    set (filters := tab K (fun r => {| cb_points := 2 * P;
            cb_data := tab (length seg) (fun c => dif k (Hb k P (fun j => nth j (nth c seg []) s0) r)) |})).
    assert (EF : mapM (multi_filter P seg) (seq 0 K) = Ok filters).
    { rewrite seq_tab. apply mapM_tab. intros r Hr. apply multi_filter_ok with (m := m); auto. nia. }
    rewrite EF. cbn [bind]. destruct (powers_ok n n) as (powers & Ep & Hsum & Hpow); auto.
    unfold GetPowersOf2In. rewrite Ep. cbn [bind].
    destruct (multi_groups_ok (length seg) filters Hl powers 0 Hpow) as (ts & Et & Hlen & Hts).
    exists K, {| m_tdupcs := ts; m_filters := filters |}. split; auto. split; auto.
    split; [rewrite Et; reflexivity|]. split.
    - intros x. split; [cbn [m_tdupcs]; lia|]. intros c Hc. cbn [m_tdupcs].
      destruct (Hts c) as (off & nd & N1 & N2 & N3); [lia|]. unfold moff, mnd. cbn [m_tdupcs]. rewrite N3.
      change (t_nd (td_make B (2 ^ s) filters ((0 + c) mod length seg) off nd)) with nd.
      change (t_offset (td_make B (2 ^ s) filters ((0 + c) mod length seg) off nd)) with off.
      do 2 (split; auto). exists (c mod length seg). cbn [Nat.add]. apply silent_stream; auto.
      apply make_silent; auto; [apply tab_length|].
      intros r Hr. unfold filters. rewrite tab_nth by auto. unfold cb_read. cbn [cb_data].
      rewrite get_tab by (apply Nat.mod_upper_bound; lia). reflexivity.
    - exists filters, powers. auto.
  Qed.
End Multi.
