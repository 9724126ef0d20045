(** * C20-C22: the time-distributed convolvers *)
From Verif.Model Require Import Base Arith ArithReal ArithMod Juce Float32 ComplexBuffer FFT Partitioning
     TimeDistributedUPC TimeDistributedUPCMulti.
From Verif.Spec Require Import Transform Buffers Signal.
From Verif.Proofs Require Import Lists ComplexAlg Butterfly FFTProof Decomp Schedule Blocks Streams UPCProof TDUPCProof TDUPCStream MultiProof.
From Verif.Props Require Import UPCProps.

(** Filter [r] of the list holds, in channel [fc], the transform of samples
    [r P .. r P + P) of [h] followed by [P] zeros. *)
Definition spectra_of {A} (P : nat) (h : list (sample A)) (fc : nat) (filters : list (cbuf A)) : Prop :=
  forall r, r < length filters ->
    let part := firstn P (skipn (r * P) h ++ repeat s0 P) ++ repeat s0 P in
    cb_read (nth r filters (cb_make 0 0)) fc = ForwardFFTUnordered (2 * P) (map creal part).

(** C20 (and C26 for this class). *)
Theorem C20_time_distributed : forall (A : arith), arith_laws A ->
  forall b s nd off fc (h : list (sample A)) filters,
  let P := 2 ^ s * 2 ^ b in
  nd <= s -> off + 2 ^ (nd + 1) <= 2 ^ s ->
  0 < length filters -> length h <= length filters * P -> spectra_of P h fc filters ->
  convolves_late1 (2 ^ b) (2 * P) h td_process td_reset
                  (td_make (2 ^ b) (2 ^ s) filters fc off nd).
Proof.
  intros A L b s nd off fc h filters P Hnd Hoff HK Hh Hsp.
  rewrite Nat.add_1_r in Hoff.
  assert (EP : P = 2 ^ (s + b)) by (unfold P; now rewrite Nat.pow_add_r).
  apply late1_lift.
  apply (convolves_late_gen L) with (N := length filters * P)
    (Inv := fun x T t => exists p0, td_stream b s nd off (length filters) fc (fun j => nth j h s0) p0 (x 0) T t).
  - auto.
  - intros x T t (p0 & Ht).
    destruct (stream_process b s nd off _ fc _ Hnd Hoff HK L p0 (x 0) T t Ht) as (t' & E & H').
    exists t'. split; [|eauto]. unfold lift1. rewrite mk_nth by lia. rewrite E. cbn [bind].
    unfold mk. cbn [tab seq map]. rewrite EP. reflexivity.
  - intros x T t x' (p0 & Ht). eexists. eapply (stream_reset (laws_zero A L)); eauto.
  - intros x. exists 0. apply (silent_stream (laws_zero A L)); auto. apply make_silent; auto.
    intros r Hr. rewrite Hsp by auto. rewrite <- EP.
    pose proof (@ForwardFFTUnordered_dif A (S (s + b)) (Hb (S (s + b)) P (fun j => nth j h s0) r) [] (tab_length _ _)) as E.
    rewrite !app_nil_r in E. rewrite N2P, <- EP in E. rewrite <- E. f_equal.
    assert (HL : length (firstn P (skipn (r * P) h ++ repeat s0 P)) = P).
    { rewrite firstn_length, app_length, repeat_length. lia. }
    apply list_tab with (d := creal s0).
    + rewrite map_length, app_length, HL, repeat_length, N2P, <- EP. lia.
    + rewrite N2P, <- EP. intros q Hq. rewrite map_nth, nth_app', HL. unfold hw.
      destruct (Nat.ltb_spec q P); [|now rewrite nth_repeat].
      rewrite nth_firstn'. destruct (Nat.ltb_spec q P); [|lia].
      rewrite nth_app', skipn_length. destruct (Nat.ltb_spec q (length h - r * P)).
      * now rewrite nth_skipn'.
      * rewrite nth_repeat. rewrite nth_overflow by lia. reflexivity.
Qed.

Example C20_example :
  let h : list (sample Zarith) := [3; 1; 4; 1; 5; 9; 2; 6; 5; 3; 5]%Z in
  let P := 2 ^ 2 * 2 ^ 1 in
  exists filters, spectra_of P h 0 filters /\ length filters = 2 /\
  let t := td_make (2 ^ 1) (2 ^ 2) filters 0 1 0 in
  let ins := [[[1; 2]; [3; 4]; [5; 6]; [7; 8]; [9; 10]; [0; 0]; [2; 1]; [0; 7]; [1; 0]; [1; 1]; [3; 2]];
              [[8; 6]; [1; 1]; [2; 2]; [0; 0]; [1; 0]; [1; 5]; [4; 4]; [7; 3]; [2; 9]; [0; 1]]]%Z in
  (' (_, outs) <- feed_sessions td_process td_reset t ins ;; Ok (map (@concat Z) outs))
  = Ok (map (fun i => delayed (2 * P) (convolve h (concat i))) ins).
Proof.
  set (part := fun r : nat => match r with
      | 0 => [3; 1; 4; 1; 5; 9; 2; 6; 0; 0; 0; 0; 0; 0; 0; 0]%Z
      | _ => [5; 3; 5; 0; 0; 0; 0; 0; 0; 0; 0; 0; 0; 0; 0; 0]%Z end).
  exists (map (fun r => match ForwardFFTUnordered 16 (map (@creal Zarith) (part r)) with
                        | Ok d => {| cb_points := 16; cb_data := [d] |} | _ => cb_make 0 0 end) [0; 1]).
  split; [|split; [reflexivity|vm_compute; reflexivity]].
  intros [|[|r]] Hr; try (vm_compute; reflexivity). cbn in Hr. lia.
Qed.

(** C21.  [n] channels, partitions of [2^s] blocks of [2^b] samples (s >= 1). *)
Theorem C21_multi_channel : forall (A : arith), arith_laws A ->
  forall n b s m (seg : audio A),
  0 < s -> 0 < length seg -> block_of (length seg) m seg -> 0 < m -> (Z.of_nat m <= 2 ^ 24)%Z ->
  exists mu, multi_make n (2 ^ b) (2 ^ s) seg = Ok mu /\
    length (m_tdupcs mu) = n /\
    (forall c t, nth_error (m_tdupcs mu) c = Some t ->
       t_filter_channel t = c mod length seg /\ t_num_phases t = 2 ^ s /\
       t_offset t + 2 * 2 ^ t_nd t <= t_num_phases t) /\
    convolves_late n (2 ^ b) (2 * (2 ^ s * 2 ^ b)) (response seg) multi_process multi_reset mu.
Proof.
  intros A L n b s m seg Hs Hl Hsh Hm H24.
  destruct (multi_make_ok (laws_zero A L) b s Hs n seg m) as (K & mu & HK & (HKm & _) & E & Hst & filters & powers & Ep & Eg); auto.
  exists mu. split; auto. destruct (Hst (fun _ _ => s0)) as [Hlen _]. split; auto.
  assert (EP : 2 ^ s * 2 ^ b = 2 ^ (s + b)) by now rewrite Nat.pow_add_r.
  split.
  - intros c t Ht. assert (Hc : c < n) by (rewrite <- Hlen; apply nth_error_Some; congruence).
    unfold GetPowersOf2In in Ep. destruct (powers_ok n n) as (powers' & Ep' & Hsum & Hpow); auto.
    rewrite Ep' in Ep. injection Ep as ->.
    destruct (multi_groups_ok b s Hs (length seg) filters Hl powers 0 Hpow) as (ts & Et & Hlen' & Hts).
    rewrite Et in Eg. injection Eg as ->.
    destruct (Hts c) as (off & nd & H1 & H2 & H3); [lia|].
    apply nth_error_nth with (d := tdd) in Ht. rewrite H3 in Ht. subst t.
    cbn [td_make td_reset td_with t_filter_channel t_num_phases t_offset t_nd].
    split; [reflexivity|]. split; [reflexivity|]. rewrite Nat.pow_succ_r' in H2. exact H2.
  - rewrite EP. apply (convolves_late_gen L) with (N := K * 2 ^ (s + b))
      (Inv := fun x T mu' => exists p0, multi_stream b s n K (ir_fun seg) (moff mu) (mnd mu) p0 x T mu').
    + intros c Hc. unfold response. destruct Hsh as [_ Hsh]. rewrite Hsh; auto.
      apply nth_In, Nat.mod_upper_bound. lia.
    + intros x T mu' (p0 & H').
      destruct (multi_process_ok b s Hs L n K _ _ _ p0 x T mu' HK H') as (mu2 & E2 & H2). exists mu2. split; eauto.
    + intros x T mu' x' (p0 & H'). eexists. eapply (multi_reset_ok (laws_zero A L)); eauto.
    + intros x. exists 0. apply Hst.
Qed.

Example C21_example :
  let seg : audio Zarith := [[3; 1; 4; 1; 5]; [2; 7; 1; 8; 2]]%Z in
  let ins := [[[[1; 2]; [3; 4]; [5; 6]]; [[7; 8]; [9; 10]; [0; 0]]; [[2; 1]; [0; 7]; [1; 0]];
               [[1; 1]; [3; 2]; [0; 1]]; [[0; 0]; [0; 0]; [0; 0]]; [[5; 5]; [1; 1]; [2; 2]];
               [[0; 1]; [0; 1]; [0; 1]]; [[0; 0]; [0; 0]; [0; 0]]];
              [[[4; 4]; [1; 9]; [3; 3]]; [[7; 8]; [9; 10]; [0; 0]]; [[2; 1]; [0; 7]; [1; 0]];
               [[1; 1]; [3; 2]; [0; 1]]; [[0; 0]; [0; 0]; [0; 0]]; [[5; 5]; [1; 1]; [2; 2]]]]%Z in
  (mu <- multi_make 3 (2 ^ 1) (2 ^ 1) seg ;;
   ' (_, outs) <- feed_sessions multi_process multi_reset mu ins ;;
   Ok (map (fun o => map (fun c => channel c o) [0; 1; 2]) outs))
  = Ok (map (fun i => map (fun c => delayed 8 (convolve (response seg c) (channel c i))) [0; 1; 2]) ins).
Proof. vm_compute. reflexivity. Qed.

(** C22.  A convolver is idle in its next call if that call uses neither transform, and makes
    at most one kind of transform if it does not use the other. *)
Definition idle {A} (t : tdupc A) : Prop :=
  forall fwd inv f d, td_sub_transform_with fwd inv t f d = Ok (f, d).
Definition only_forward {A} (t : tdupc A) : Prop :=
  forall inv f d, td_sub_transform_with ForwardFFTUnordered inv t f d = td_sub_transform t f d.
Definition only_inverse {A} (t : tdupc A) : Prop :=
  forall fwd f d, td_sub_transform_with fwd InverseFFTUnordered t f d = td_sub_transform t f d.

Lemma idle_iff {A} (t : tdupc A) : td_active t = false -> idle t.
Proof. intros H fwd inv f d. unfold td_sub_transform_with. now rewrite H. Qed.
Lemma one_kind {A} (t : tdupc A) : only_forward t \/ only_inverse t.
Proof.
  unfold only_forward, only_inverse, td_sub_transform, td_sub_transform_with.
  destruct (td_active t); auto. destruct (_ mod 2 =? 0); auto.
Qed.

Lemma filter_none {X} f (l : list X) : (forall x, In x l -> f x = false) -> filter f l = [].
Proof.
  induction l as [|a l IH]; intros H; auto. cbn. rewrite H by now left. apply IH. intros; apply H; now right.
Qed.

Lemma filter_mod w q : q < w -> forall M,
  length (filter (fun c => c mod w =? q) (seq 0 (M * w))) = M.
Proof.
  intros Hq M. induction M; [reflexivity|].
  replace (S M * w) with (M * w + (q + (1 + (w - q - 1)))) by lia.
  rewrite !seq_app, !filter_app, !app_length, IHM. cbn [Nat.add].
  assert (Hm : forall r, r < w -> (M * w + r) mod w = r).
  { intros r Hr. rewrite Nat.add_comm, Nat.mod_add by lia. now apply Nat.mod_small. }
  rewrite (filter_none _ (seq (M * w) q)), (filter_none _ (seq (M * w + q + 1) _)).
  - cbn [seq filter]. rewrite Hm, Nat.eqb_refl by auto. cbn. lia.
  - intros c Hc. apply in_seq in Hc. apply Nat.eqb_neq.
    replace c with (M * w + (c - M * w)) by lia. rewrite Hm; lia.
  - intros c Hc. apply in_seq in Hc. apply Nat.eqb_neq.
    replace c with (M * w + (c - M * w)) by lia. rewrite Hm; lia.
Qed.

(** the convolvers of one group *)
Lemma groups_nth {A : arith} b s (Hs : 0 < s) irch (filters : list (cbuf A)) : 0 < irch ->
  forall pre g post co ts c,
  (forall p, In p (pre ++ 2 ^ g :: post) -> exists g', p = 2 ^ g') ->
  multi_groups (2 ^ b) (2 ^ s) irch filters co (pre ++ 2 ^ g :: post) = Ok ts -> c < 2 ^ g ->
  t_offset (nth (sum pre + c) ts tdd) = (c * 2 ^ S (s - 1 - g)) mod 2 ^ s /\
  t_nd (nth (sum pre + c) ts tdd) = s - 1 - g.
Proof.
  intros Hir. induction pre as [|p pre IH]; intros g post co ts c Hp E Hc.
  - cbn [app multi_groups] in E. rewrite multi_group_ok in E by auto. cbn [bind] in E.
    destruct (multi_groups_ok b s Hs irch filters Hir post (co + 2 ^ g)) as (r & Er & _).
    { intros q Hq. apply Hp. now right. }
    rewrite Er in E. injection E as <-. cbn [sum fold_right Nat.add].
    rewrite nth_app', tab_length. destruct (Nat.ltb_spec c (2 ^ g)); [|lia].
    rewrite tab_nth by auto. split; reflexivity.
  - destruct (Hp p (or_introl eq_refl)) as (g' & ->).
    cbn [app multi_groups] in E. rewrite multi_group_ok in E by auto. cbn [bind] in E.
    destruct (multi_groups_ok b s Hs irch filters Hir (pre ++ 2 ^ g :: post) (co + 2 ^ g')) as (r & Er & _).
    { intros q Hq. apply Hp. now right. }
    rewrite Er in E. injection E as <-. cbn [sum fold_right]. fold (sum pre).
    rewrite nth_app', tab_length. destruct (Nat.ltb_spec (2 ^ g' + sum pre + c) (2 ^ g')); [lia|].
    replace (2 ^ g' + sum pre + c - 2 ^ g') with (sum pre + c) by lia.
    eapply IH; [|exact Er|exact Hc]. intros q Hq. apply Hp. now right.
Qed.

Lemma active_window s g c p :
  0 < s -> p < 2 ^ s ->
  let nd := s - 1 - g in let off := (c * 2 ^ S nd) mod 2 ^ s in
  ((off <=? p) && (p <? off + 2 ^ nd * 2))%bool = (c mod 2 ^ (s - S nd) =? p / 2 ^ S nd).
Proof.
  intros Hs Hp nd off.
  assert (Eo : off = (c mod 2 ^ (s - S nd)) * 2 ^ S nd).
  { unfold off. replace s with (S nd + (s - S nd)) at 1 by lia. rewrite Nat.pow_add_r, (Nat.mul_comm c).
    rewrite Nat.mul_mod_distr_l by (apply Nat.pow_nonzero; lia). lia. }
  rewrite Eo. set (q := c mod 2 ^ (s - S nd)).
  assert (EW : 2 ^ nd * 2 = 2 ^ S nd) by (rewrite Nat.pow_succ_r'; lia). rewrite EW.
  pose proof (pow2_pos (S nd)) as HW. set (W := 2 ^ S nd) in *.
  pose proof (Nat.div_mod p W ltac:(lia)) as Hd. pose proof (Nat.mod_upper_bound p W ltac:(lia)) as Hr.
  destruct (Nat.eqb_spec q (p / W)) as [E|E].
  - rewrite E. destruct (Nat.leb_spec (p / W * W) p), (Nat.ltb_spec p (p / W * W + W)); auto; nia.
  - destruct (Nat.leb_spec (q * W) p), (Nat.ltb_spec p (q * W + W)); auto. exfalso. apply E. nia.
Qed.

(** C22.  In every state reached, in every group of [2^g] channels, exactly
    max (1, 2^g / 2^(s-1)) channels will be busy in the next call; the others use no transform,
    and those make at most one kind of transform. *)
Theorem C22_load : forall (A : arith), arith_laws A ->
  forall n b s m (seg : audio A),
  0 < s -> 0 < length seg -> block_of (length seg) m seg -> 0 < m -> (Z.of_nat m <= 2 ^ 24)%Z ->
  forall mu, multi_make n (2 ^ b) (2 ^ s) seg = Ok mu ->
  forall sessions, (forall blocks, In blocks sessions -> forall bl, In bl blocks -> block_of n (2 ^ b) bl) ->
  forall mu' outs, feed_sessions multi_process multi_reset mu sessions = Ok (mu', outs) ->
  forall pre g post, GetPowersOf2In n = Ok (pre ++ 2 ^ g :: post) ->
  exists busy, NoDup busy /\ length busy = Nat.max 1 (2 ^ g / 2 ^ (s - 1)) /\
    (forall c, In c busy -> sum pre <= c < sum pre + 2 ^ g) /\
    forall c t, sum pre <= c < sum pre + 2 ^ g -> nth_error (m_tdupcs mu') c = Some t ->
      (In c busy /\ (only_forward t \/ only_inverse t)) \/ (~ In c busy /\ idle t).
Proof.
  intros A L n b s m seg Hs Hl Hsh Hm H24 mu Emu sessions Hses mu' outs Ef pre g post Eg.
  destruct (multi_make_ok (laws_zero A L) b s Hs n seg m) as (K & mu0 & HK & (HKm & _) & E & Hst & filters & powers & Ep & Egr); auto.
  rewrite E in Emu. injection Emu as ->. rewrite Ep in Eg. injection Eg as ->.
  assert (Hinv : exists p0 x T, multi_stream b s n K (ir_fun seg) (moff mu) (mnd mu) p0 x T mu').
  { destruct (sessions_gen multi_process multi_reset n (fun k => k = 2 ^ b)
       (fun x T mu' => exists p0, multi_stream b s n K (ir_fun seg) (moff mu) (mnd mu) p0 x T mu')
       (fun c x t => ago (fir (K * 2 ^ (s + b)) (ir_fun seg c) x) t (2 * 2 ^ (s + b))))
      with (sessions := sessions) (s := mu) as (s' & outs' & E' & (x & T & p0 & HI) & _).
    - intros x T mu1 k -> (p0 & H1).
      destruct (multi_process_ok b s Hs L n K _ _ _ p0 x T mu1 HK H1) as (mu2 & E2 & H2). exists mu2. split; eauto.
    - intros x T mu1 x' (p0 & H1). eexists. eapply (multi_reset_ok (laws_zero A L)); eauto.
    - intros x. exists 0. apply Hst.
    - intros blocks Hb bl Hbl. exists (2 ^ b). split; auto. eapply Hses; eauto.
    - rewrite E' in Ef. injection Ef as <- <-. eauto. }
  destruct Hinv as (p0 & x & T & Hlen & Hinv).
  unfold GetPowersOf2In in Ep. destruct (powers_ok n n) as (powers' & Ep' & Hsum & Hpow); auto.
  rewrite Ep' in Ep. injection Ep as ->.
  set (p := phase_at b s p0 T).
  assert (Hp : p < 2 ^ s) by (apply Nat.mod_upper_bound; apply Nat.pow_nonzero; lia).
  set (nd := s - 1 - g). set (q := p / 2 ^ S nd). set (w := 2 ^ (s - S nd)).
  exists (map (fun c => sum pre + c) (filter (fun c => c mod w =? q) (seq 0 (2 ^ g)))).
  assert (Hqw : q < w).
  { apply Nat.div_lt_upper_bound; [apply Nat.pow_nonzero; lia|]. unfold w. rewrite <- Nat.pow_add_r.
    replace (S nd + (s - S nd)) with s by (unfold nd; lia). exact Hp. }
  assert (Hg : exists e, g = e + (s - S nd)) by (exists (g - (s - S nd)); unfold nd; lia).
  destruct Hg as (e & Hge).
  assert (Hin : forall c, In c (map (fun c => sum pre + c) (filter (fun c => c mod w =? q) (seq 0 (2 ^ g)))) <->
            sum pre <= c < sum pre + 2 ^ g /\ (c - sum pre) mod w = q).
  { intros c. rewrite in_map_iff. split.
    - intros (c' & <- & H1). apply filter_In in H1 as [H1 H2]. apply in_seq in H1. apply Nat.eqb_eq in H2.
      replace (sum pre + c' - sum pre) with c' by lia. split; [lia|auto].
    - intros [H1 H2]. exists (c - sum pre). split; [lia|]. apply filter_In. split.
      + apply in_seq. lia.
      + now apply Nat.eqb_eq. }
  split; [|split; [|split]].
  - apply FinFun.Injective_map_NoDup; [intros u v Huv; lia|]. apply NoDup_filter, seq_NoDup.
  - rewrite map_length. rewrite Hge at 1. rewrite Nat.pow_add_r. fold w. rewrite filter_mod by auto.
    assert (Hew : 2 ^ g = 2 ^ e * w) by (unfold w; rewrite <- Nat.pow_add_r; congruence).
    destruct (Nat.le_gt_cases g (s - 1)) as [Hle|Hgt].
    + assert (Ee : e = 0) by (unfold nd in *; lia). rewrite Ee. cbn [Nat.pow].
      pose proof (Nat.pow_le_mono_r 2 g (s - 1) ltac:(lia) Hle).
      pose proof (pow2_pos g).
      assert (2 ^ g / 2 ^ (s - 1) <= 1).
      { apply Nat.div_le_upper_bound; [apply Nat.pow_nonzero; lia|lia]. }
      lia.
    + assert (Ew : w = 2 ^ (s - 1)) by (unfold w, nd; f_equal; lia).
      rewrite Hew, Ew, Nat.div_mul by (apply Nat.pow_nonzero; lia).
      pose proof (pow2_pos e). lia.
  - intros c Hc. apply Hin in Hc. tauto.
  - intros c t Hc Ht.
    assert (Hcn : c < n) by (rewrite <- Hlen; apply nth_error_Some; congruence).
    destruct (Hinv c Hcn) as (Hnd & Hof & fc & Hstr). apply nth_error_nth with (d := tdd) in Ht. rewrite Ht in Hstr.
    destruct (stream_static b s _ _ K fc _ Hnd Hof HK p0 _ T t Hstr) as [Hstat Hph].
    destruct Hstat as (S1 & S2 & S3 & S4 & S5 & S6 & _).
    assert (Hact : td_active t = ((c - sum pre) mod w =? q)).
    { destruct (groups_nth b s Hs (length seg) filters Hl pre g post 0 (m_tdupcs mu) (c - sum pre) Hpow Egr) as [G1 G2]; [lia|].
      replace (sum pre + (c - sum pre)) with c in G1, G2 by lia.
      unfold td_active. rewrite Hph, S6, S4. fold p. unfold moff, mnd. rewrite G1, G2.
      exact (active_window s g (c - sum pre) p Hs Hp). }
    destruct (Nat.eqb_spec ((c - sum pre) mod w) q) as [Eq|Nq].
    + left. split; [apply Hin; auto|]. apply one_kind.
    + right. split; [rewrite Hin; tauto|]. now apply idle_iff.
Qed.

Example C22_example :
  let seg : audio Zarith := [[3; 1; 4; 1; 5]; [2; 7; 1; 8; 2]]%Z in
  GetPowersOf2In 7 = Ok ([] ++ 2 ^ 2 :: [2; 1]) /\
  (mu <- multi_make 7 (2 ^ 0) (2 ^ 3) seg ;;
   ' (mu', _) <- feed_sessions multi_process multi_reset mu
       [[repeat [1%Z] 7; repeat [1%Z] 7; repeat [1%Z] 7]; [repeat [1%Z] 7]] ;;
   Ok (map td_active (m_tdupcs mu')))
  = Ok [false; false; true; false; false; true; true].
Proof. vm_compute. auto. Qed.

Print Assumptions C20_time_distributed.
Print Assumptions C21_multi_channel.
Print Assumptions C22_load.
