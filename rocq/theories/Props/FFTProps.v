(** * C01 - C07: the transforms *)
From Coq Require Import Permutation.
From Verif.Model Require Import Base Arith ArithReal ArithMod Juce FFT FFTDecomposition
     DecompositionSchedule.
From Verif.Spec Require Import Transform Compose.
From Verif.Proofs Require Import Lists ComplexAlg Butterfly FFTProof Decomp Schedule.

(** [bitrev] reverses the order of the [k] low bits. *)
Lemma bitrev_spec k : forall p i,
  i < k -> Nat.testbit (bitrev k p) i = Nat.testbit p (k - 1 - i).
Proof.
  induction k; intros p i Hi; [lia|]. cbn [bitrev].
  assert (Hb : bitrev k (p / 2) < 2 ^ k) by apply bitrev_lt.
  rewrite Nat.add_comm.
  destruct (Nat.eq_dec i k) as [->|Hne].
  - replace (S k - 1 - k) with 0 by lia.
    rewrite !Nat.testbit_eqb. rewrite Nat.div_add by (apply Nat.pow_nonzero; lia).
    rewrite Nat.div_small, Nat.add_0_l by auto. rewrite Nat.mod_mod by lia.
    change (2 ^ 0) with 1. now rewrite Nat.div_1_r.
  - rewrite <- (Nat.mod_pow2_bits_low _ k i) by lia.
    rewrite Nat.mod_add by (apply Nat.pow_nonzero; lia).
    rewrite Nat.mod_small by auto. rewrite IHk by lia.
    change (p / 2) with (p / 2 ^ 1). rewrite Nat.div_pow2_bits. f_equal. lia.
Qed.

(** C01.  The buffer is followed by other memory [rest], which is not touched. *)
Theorem C01_forward_fft_is_dft : forall (A : arith), arith_laws A ->
  forall k (x rest : list (cplx A)), length x = 2 ^ k ->
  exists y, ForwardFFTUnordered (2 ^ k) (x ++ rest) = Ok (y ++ rest) /\ length y = 2 ^ k /\
            forall p, p < 2 ^ k -> nth p y c0 = dft (2 ^ k) x (bitrev k p).
Proof.
  intros A L k x rest Hx. exists (dif k x). split; [|split].
  - now apply ForwardFFTUnordered_dif.
  - now apply dif_length.
  - intros. now apply dif_dft.
Qed.

Example C01_example : exists y : list (cplx Zarith),
  ForwardFFTUnordered 8 (zreal [3; 1; 4; 1; 5; 9; 2; 6]%Z) = Ok y /\
  nth 0 y c0 = (31, 0)%Z /\ nth 1 y c0 = (8188, 0)%Z.
Proof. eexists. split; [vm_compute; reflexivity|]. vm_compute. auto. Qed.
(** over the real numbers, with the real cosine and sine *)
Example C01_real : forall k (x rest : list (cplx Rarith)), length x = 2 ^ k ->
  exists y, ForwardFFTUnordered (2 ^ k) (x ++ rest) = Ok (y ++ rest) /\ length y = 2 ^ k /\
            forall p, p < 2 ^ k -> nth p y c0 = dft (2 ^ k) x (bitrev k p).
Proof. exact (C01_forward_fft_is_dft Rarith Rarith_laws). Qed.

(** C02 *)
Theorem C02_fft_round_trip : forall (A : arith), arith_laws A ->
  forall k (x rest : list (cplx A)), length x = 2 ^ k ->
  (y <- ForwardFFTUnordered (2 ^ k) (x ++ rest) ;; InverseFFTUnordered (2 ^ k) y) = Ok (x ++ rest) /\
  (y <- InverseFFTUnordered (2 ^ k) (x ++ rest) ;; ForwardFFTUnordered (2 ^ k) y) = Ok (x ++ rest).
Proof.
  intros A L k x rest Hx. split.
  - rewrite ForwardFFTUnordered_dif by auto. cbn [bind].
    rewrite InverseFFTUnordered_idif by now apply dif_length. now rewrite idif_dif.
  - rewrite InverseFFTUnordered_idif by auto. cbn [bind].
    rewrite ForwardFFTUnordered_dif by now apply idif_length. now rewrite dif_idif.
Qed.

Example C02_example :
  let x := zreal [3; 1; 4; 1; 5; 9; 2; 6]%Z in
  (y <- InverseFFTUnordered 8 x ;; ForwardFFTUnordered 8 y) = Ok x.
Proof. vm_compute. reflexivity. Qed.

(** C03.  2^l segments of 2^(m+1) points, 2^s <= 2^m steps. *)
Theorem C03_steps_in_any_order : forall (A : arith) l m s order (d : list (cplx A)),
  s <= m -> length d = 2 ^ (l + S m) -> Permutation order (seq 0 (2 ^ s)) ->
  run_steps (SegmentedForwardDecompositionRadix2 (2 ^ (l + S m)) (2 ^ l) (2 ^ s)) order d
  = SegmentedForwardDecompositionRadix2 (2 ^ (l + S m)) (2 ^ l) 1 0 d
  /\ run_steps (SegmentedInverseDecompositionRadix2 (2 ^ (l + S m)) (2 ^ l) (2 ^ s)) order d
  = SegmentedInverseDecompositionRadix2 (2 ^ (l + S m)) (2 ^ l) 1 0 d
  /\ (exists e, SegmentedForwardDecompositionRadix2 (2 ^ (l + S m)) (2 ^ l) 1 0 d = Ok e)
  /\ (exists e, SegmentedInverseDecompositionRadix2 (2 ^ (l + S m)) (2 ^ l) 1 0 d = Ok e).
Proof.
  intros A l m s order d Hs Hd HP.
  assert (E : length d = 2 ^ l * 2 ^ S m) by (rewrite Hd; apply Nat.pow_add_r).
  rewrite <- (chop_concat (2 ^ S m) (2 ^ l) d) by auto.
  pose proof (chop_in (2 ^ S m) (2 ^ l) d) as Hin.
  set (segs := chop (2 ^ S m) (2 ^ l) d) in *.
  assert (Hl : length segs = 2 ^ l) by apply chop_length.
  assert (Hsz : 2 ^ s * 2 ^ (m - s) = 2 ^ m).
  { rewrite <- Nat.pow_add_r. f_equal. lia. }
  pose proof (seg_fwd_call l m 0 0 segs) as F0. pose proof (seg_inv_call l m 0 0 segs) as I0.
  rewrite Nat.sub_0_r in F0, I0. change (2 ^ 0) with 1 in F0, I0.
  specialize (F0 (Nat.le_0_l _) (Nat.lt_0_succ _) Hl (fun x => Hin x E)).
  specialize (I0 (Nat.le_0_l _) (Nat.lt_0_succ _) Hl (fun x => Hin x E)).
  split; [|split; [|split; [|]]].
  - rewrite F0.
    eapply (steps_any_order (@fwd_seg A) _ _ (2 ^ m) (2 ^ (m - s))); eauto.
    + reflexivity.
    + intros cur segs' Hc Hl' Hs'. apply seg_fwd_call; auto.
    + apply pow2_pos.
  - rewrite I0.
    eapply (steps_any_order (@inv_seg A) _ _ (2 ^ m) (2 ^ (m - s))); eauto.
    + reflexivity.
    + intros cur segs' Hc Hl' Hs'. apply seg_inv_call; auto.
    + apply pow2_pos.
  - eauto.
  - eauto.
Qed.

Lemma concat_nth {T} (segs : list (list T)) len (dflt : T) :
  (forall s, In s segs -> length s = len) -> 0 < len ->
  forall q, q < length segs * len ->
  nth q (concat segs) dflt = nth (q mod len) (nth (q / len) segs []) dflt.
Proof.
  intros H Hlen. induction segs as [|s t IH]; intros q Hq; [simpl in Hq; lia|].
  cbn [concat]. assert (Hs : length s = len) by (apply H; now left).
  rewrite nth_app', Hs. destruct (Nat.ltb_spec q len).
  - rewrite Nat.div_small, Nat.mod_small by lia. reflexivity.
  - rewrite IH; [|intros; apply H; now right|simpl in Hq; lia].
    replace q with (q - len + 1 * len) at 3 4 by lia.
    rewrite Nat.mod_add, Nat.div_add by lia. rewrite Nat.add_1_r. reflexivity.
Qed.

(** ... and one step changes, in every segment, only the points of that step (and their
    mirror points in the second half of the segment). *)
Theorem C03_step_frame : forall (A : arith) l m s cur (d : list (cplx A)),
  s <= m -> cur < 2 ^ s -> length d = 2 ^ (l + S m) ->
  forall f, f = SegmentedForwardDecompositionRadix2 \/ f = SegmentedInverseDecompositionRadix2 ->
  exists e, f (2 ^ (l + S m)) (2 ^ l) (2 ^ s) cur d = Ok e /\ length e = length d /\
    forall q, q < length d ->
      let i := q mod 2 ^ m in    (* position within the half segment *)
      ~ (cur * 2 ^ (m - s) <= i < (cur + 1) * 2 ^ (m - s)) -> nth q e c0 = nth q d c0.
Proof.
  intros A l m s cur d Hs Hc Hd f Hf.
  assert (E : length d = 2 ^ l * 2 ^ S m) by (rewrite Hd; apply Nat.pow_add_r).
  assert (Hcur : (cur + 1) * 2 ^ (m - s) <= 2 ^ m).
  { replace m with (s + (m - s)) at 2 by lia. rewrite Nat.pow_add_r.
    apply Nat.mul_le_mono_r. lia. }
  pose proof (chop_concat (2 ^ S m) (2 ^ l) d E) as Ed.
  pose proof (chop_in (2 ^ S m) (2 ^ l) d) as Hin.
  assert (Hl : length (chop (2 ^ S m) (2 ^ l) d) = 2 ^ l) by apply chop_length.
  set (segs := chop (2 ^ S m) (2 ^ l) d) in *.
  assert (G : forall op F G', (forall x, op x = bf_seg F G' (2 ^ m) (cur * 2 ^ (m - s)) (2 ^ (m - s)) x) ->
    f (2 ^ (l + S m)) (2 ^ l) (2 ^ s) cur d = Ok (concat (map op segs)) ->
    exists e, f (2 ^ (l + S m)) (2 ^ l) (2 ^ s) cur d = Ok e /\ length e = length d /\
    forall q, q < length d ->
      let i := q mod 2 ^ m in
      ~ (cur * 2 ^ (m - s) <= i < (cur + 1) * 2 ^ (m - s)) -> nth q e c0 = nth q d c0).
  { intros op F G' Hop Hrun. exists (concat (map op segs)). split; auto.
    assert (Hop' : forall x, In x (map op segs) -> length x = 2 ^ S m).
    { intros x Hx. apply in_map_iff in Hx as (y & <- & _). rewrite Hop. apply bf_seg_length. }
    split.
    - rewrite (concat_length_const _ _ Hop'), map_length, Hl. lia.
    - intros q Hq i Hi. rewrite <- Ed at 1.
      pose proof (pow2_pos (S m)). pose proof (pow2_pos m).
      rewrite !concat_nth with (len := 2 ^ S m); auto; try (rewrite ?map_length; lia).
      assert (q / 2 ^ S m < 2 ^ l) by (apply Nat.div_lt_upper_bound; lia).
      rewrite (nth_indep _ _ (op [])) by (rewrite map_length; lia).
      rewrite map_nth, Hop. unfold bf_seg.
      assert (Hr : q mod 2 ^ S m < 2 * 2 ^ m) by (apply Nat.mod_upper_bound; lia).
      rewrite tab_nth by auto.
      assert (Ei : i = (q mod 2 ^ S m) mod 2 ^ m).
      { unfold i. rewrite (Nat.div_mod q (2 ^ S m)) at 1 by lia.
        replace (2 ^ S m * (q / 2 ^ S m)) with (2 * (q / 2 ^ S m) * 2 ^ m) by (simpl; ring).
        rewrite Nat.add_comm, Nat.mod_add by lia. reflexivity. }
      destruct (Nat.ltb_spec (q mod 2 ^ S m) (2 ^ m)).
      + rewrite Nat.mod_small in Ei by lia. bcase; auto; lia.
      + assert (i = q mod 2 ^ S m - 2 ^ m).
        { rewrite Ei. rewrite <- (Nat.mod_small (q mod 2 ^ S m - 2 ^ m) (2 ^ m)) by lia.
          rewrite <- (Nat.mod_add (q mod 2 ^ S m - 2 ^ m) 1 (2 ^ m)) by lia. f_equal. lia. }
        bcase; auto; lia. }
  assert (Hin' : forall x, In x segs -> length x = 2 ^ S m) by (intros; now apply Hin).
  destruct Hf as [-> | ->].
  - eapply (G (@fwd_seg A (2 ^ m) (cur * 2 ^ (m - s)) (2 ^ (m - s)))); [reflexivity|].
    rewrite <- Ed. now apply seg_fwd_call.
  - eapply (G (@inv_seg A (2 ^ m) (cur * 2 ^ (m - s)) (2 ^ (m - s)))); [reflexivity|].
    rewrite <- Ed. now apply seg_inv_call.
Qed.

Example C03_example :
  let x := zreal [3; 1; 4; 1; 5; 9; 2; 6]%Z in
  Permutation [1; 0] (seq 0 2) /\
  run_steps (SegmentedForwardDecompositionRadix2 8 2 2) [1; 0] x
  = SegmentedForwardDecompositionRadix2 8 2 1 0 x
  /\ SegmentedForwardDecompositionRadix2 8 2 2 0 x
     <> SegmentedForwardDecompositionRadix2 8 2 1 0 x.
Proof. cbv zeta. split; [apply perm_swap|split; [vm_compute; reflexivity|vm_compute; discriminate]]. Qed.

(** C04 *)
Theorem C04_depth_irrelevant : forall (A : arith) k nd (x : list (cplx A)),
  nd <= k -> length x = 2 ^ k ->
  (exists y, ForwardFFTUnordered (2 ^ k) x = Ok y /\ forward_via k nd x = Ok y) /\
  (exists y, InverseFFTUnordered (2 ^ k) x = Ok y /\ inverse_via k nd x = Ok y).
Proof.
  intros A k nd x Hn Hx. split.
  - exists (dif k x). split.
    { pose proof (ForwardFFTUnordered_dif k x []) as E. rewrite !app_nil_r in E. auto. }
    unfold forward_via, decompose, for_n.
    pose proof (fwd_passes nd 0 k [x]) as E. cbn [concat flat_map] in E. rewrite !app_nil_r in E.
    cbn [Nat.add] in E. rewrite E by (auto; intros ? [<-|[]]; auto). cbn [bind].
    unfold on_all_slices. rewrite <- (dsegs_length nd k x) by auto.
    rewrite slices with (g := dif (k - nd)).
    + now rewrite dif_dsegs.
    + intros s Hin. apply dsegs_in in Hin; auto. split; auto. split; [|now apply dif_length].
      pose proof (ForwardFFTUnordered_dif (k - nd) s []) as E'. rewrite !app_nil_r in E'. auto.
  - exists (idif k x). split.
    { pose proof (InverseFFTUnordered_idif k x []) as E. rewrite !app_nil_r in E. auto. }
    unfold inverse_via, recompose, on_all_slices.
    assert (El : length x = 2 ^ nd * 2 ^ (k - nd)).
    { rewrite Hx, <- Nat.pow_add_r. f_equal. lia. }
    rewrite <- (chop_concat (2 ^ (k - nd)) (2 ^ nd) x) at 1 by auto.
    rewrite <- (chop_length (2 ^ (k - nd)) (2 ^ nd) x) at 1.
    rewrite slices with (g := idif (k - nd)).
    + cbn [bind]. rewrite <- (idif_chop nd k x) by auto.
      set (z := concat (map (idif (k - nd)) (chop (2 ^ (k - nd)) (2 ^ nd) x))).
      pose proof (inv_passes nd 0 k [z]) as E. cbn [concat map] in E. rewrite !app_nil_r in E.
      cbn [Nat.add] in E. apply E; auto. intros y [<-|[]].
      unfold z. rewrite concat_length_const with (n := 2 ^ (k - nd)).
      * rewrite map_length, chop_length. lia.
      * intros s Hin. apply in_map_iff in Hin as (y & <- & Hin). apply idif_length.
        eapply chop_in; eauto.
    + intros s Hin. apply chop_in in Hin; auto. split; auto. split; [|now apply idif_length].
      pose proof (InverseFFTUnordered_idif (k - nd) s []) as E'. rewrite !app_nil_r in E'. auto.
Qed.

Example C04_example :
  let x := zreal [3; 1; 4; 1; 5; 9; 2; 6]%Z in
  forward_via 3 2 x = ForwardFFTUnordered 8 x /\ inverse_via 3 1 x = InverseFFTUnordered 8 x.
Proof. vm_compute. auto. Qed.

(** C05.  [2^s] blocks of [2^b] points arrive into the first half of a buffer whose second
    half is zero and whose first half [g] holds anything: points that have not arrived are
    not used. *)
Theorem C05_forward_schedule : forall (A : arith) nd s b (blocks : nat -> list (cplx A)) g,
  nd <= s -> (forall p, p < 2 ^ s -> length (blocks p) = 2 ^ b) -> length g = 2 ^ s * 2 ^ b ->
  let n := 2 * (2 ^ s * 2 ^ b) in
  let partition := concat (map blocks (seq 0 (2 ^ s))) in
  let zeros := repeat c0 (2 ^ s * 2 ^ b) in
  stream_forward nd n (2 ^ s) blocks (2 ^ b) (g ++ zeros) = decompose n nd (partition ++ zeros)
  /\ exists d, decompose n nd (partition ++ zeros) = Ok d.
Proof.
  intros A nd s b blocks g Hn Hb Hg n partition zeros.
  assert (En : n = 2 ^ S (s + b)) by (unfold n; rewrite <- Nat.pow_add_r; reflexivity).
  assert (Eh : 2 ^ s * 2 ^ b = 2 ^ (s + b)) by now rewrite Nat.pow_add_r.
  assert (Hp : length partition = 2 ^ s * 2 ^ b).
  { unfold partition. rewrite concat_length_const with (n := 2 ^ b).
    - now rewrite map_length, seq_length.
    - intros x Hx. apply in_map_iff in Hx as (p & <- & Hp). apply in_seq in Hp. apply Hb. lia. }
  assert (Hz : length zeros = 2 ^ s * 2 ^ b) by apply repeat_length.
  set (X := partition ++ zeros).
  assert (HX : length X = 2 * 2 ^ (s + b)) by (unfold X; rewrite app_length; lia).
  assert (Hdec : decompose n nd X = Ok (decomp nd (S (s + b)) X)).
  { unfold decompose, for_n. rewrite En.
    pose proof (fwd_passes nd 0 (S (s + b)) [X]) as E. cbn [concat flat_map] in E.
    rewrite !app_nil_r in E. cbn [Nat.add] in E. apply E; [lia|auto|]. intros x [<-|[]].
    rewrite HX. reflexivity. }
  split; [|eauto]. rewrite Hdec. unfold stream_forward.
  pose proof (for_from_inv (fun p (d : list (cplx A)) =>
    length d = 2 * 2 ^ (s + b) /\ J b nd s p d X /\
    (forall q, p * 2 ^ b <= q < 2 ^ (s + b) -> nth (q + 2 ^ (s + b)) d c0 = c0))) as E.
  match goal with |- for_n ?m ?bd ?d0 = _ => specialize (E bd 0 m) end.
  destruct (E) with (s := g ++ zeros) as (d & Hrun & Hd & HJ & _).
  - intros p d Hpr (Hd & HJ & H0). cbn [Nat.add] in Hpr.
    assert (Hbp : length (blocks p) = 2 ^ b) by (apply Hb; lia).
    assert (Hpb : (p + 1) * 2 ^ b <= 2 ^ (s + b)) by (rewrite <- Eh; apply Nat.mul_le_mono_r; lia).
    set (d1 := write_at (p * 2 ^ b) (blocks p) d).
    assert (Hd1 : length d1 = 2 * 2 ^ (s + b)).
    { unfold d1, write_at. rewrite !app_length, firstn_length, skipn_length. lia. }
    assert (Hnth : forall q, nth q d1 c0 =
       if (p * 2 ^ b <=? q) && (q <? (p + 1) * 2 ^ b) then nth (q - p * 2 ^ b) (blocks p) c0
       else nth q d c0).
    { intros q. unfold d1, write_at. rewrite !nth_app', firstn_length, nth_firstn', nth_skipn'.
      rewrite Nat.min_l by lia. bcase; try lia; auto. f_equal. lia. }
    rewrite En. change (2 ^ S (s + b)) with (2 * 2 ^ (s + b)).
    rewrite forward_schedule_fs by (auto; lia).
    eexists. split; [reflexivity|]. split; [now apply fs_length|]. split.
    + rewrite <- Nat.add_1_r. apply fs_step; auto; try lia.
      * apply J_frame with (d := d); auto; try lia. intros q Hq. unfold early in Hq.
        rewrite Hnth. bcase; auto; lia.
      * intros q Hq. split.
        -- rewrite Hnth. unfold X. rewrite app_nth1 by lia. unfold partition.
           rewrite concat_nth with (len := 2 ^ b).
           ++ assert (Eq : q / 2 ^ b = p).
              { symmetry. apply Nat.div_unique with (q - p * 2 ^ b); lia. }
              assert (Em : q mod 2 ^ b = q - p * 2 ^ b).
              { rewrite Nat.mod_eq by (apply Nat.pow_nonzero; lia). rewrite Eq. lia. }
              rewrite Eq, Em.
              rewrite (nth_indep _ _ (blocks 0)) by (rewrite map_length, seq_length; lia).
              rewrite map_nth, seq_nth by lia. bcase; auto; lia.
           ++ intros x Hx. apply in_map_iff in Hx as (i & <- & Hi). apply in_seq in Hi. apply Hb. lia.
           ++ apply pow2_pos.
           ++ rewrite map_length, seq_length. lia.
        -- rewrite Hnth. bcase; try lia. rewrite H0 by lia. unfold X. rewrite app_nth2 by lia.
           unfold zeros. now rewrite nth_repeat.
    + intros q Hq. rewrite fs_frame; auto; try lia.
      * rewrite Hnth. bcase; try lia. apply H0. lia.
      * unfold early. lia.
  - rewrite app_length. split; [lia|]. split; [apply J_0|]. intros q Hq.
    rewrite app_nth2 by lia. unfold zeros. now rewrite nth_repeat.
  - unfold for_n. rewrite Hrun. f_equal. cbn [Nat.add] in HJ. now apply (J_final b) in HJ.
Qed.

(** a partition of 4 blocks of 2 points, 2 levels *)
Example C05_example :
  let blocks := fun p => zreal (map (fun z => (Z.of_nat p + z)%Z) [1; 5]%Z) in
  let g := repeat ((77, 78)%Z : cplx Zarith) 8 in
  stream_forward 2 16 4 blocks 2 (g ++ repeat c0 8)
  = decompose 16 2 (concat (map blocks (seq 0 4)) ++ repeat c0 8).
Proof. vm_compute. reflexivity. Qed.

(** C06 *)
Theorem C06_inverse_schedule : forall (A : arith) nd s b (y : list (cplx A)),
  nd <= s -> length y = 2 * (2 ^ s * 2 ^ b) ->
  let half := 2 ^ s * 2 ^ b in
  exists z, recompose (2 * half) nd y = Ok z /\
  forall p, p < 2 ^ s ->
    exists d, stream_inverse nd (2 * half) (2 ^ s) (p + 1) y = Ok d /\
      (forall q, q < (p + 1) * 2 ^ b ->
         nth q d c0 = nth q z c0 /\ nth (half + q) d c0 = nth (half + q) z c0) /\
      (p + 1 = 2 ^ s -> d = z).
Proof.
  intros A nd s b y Hn Hy half.
  assert (Eh : half = 2 ^ (s + b)) by (unfold half; now rewrite Nat.pow_add_r).
  assert (Hy' : length y = 2 * 2 ^ (s + b)) by (rewrite Hy; fold half; lia).
  exists (imerge nd (S (s + b)) y). split.
  { unfold recompose. rewrite Eh. change (2 * 2 ^ (s + b)) with (2 ^ S (s + b)).
    pose proof (inv_passes nd 0 (S (s + b)) [y]) as E. cbn [concat map] in E.
    rewrite !app_nil_r in E. cbn [Nat.add] in E. apply E; [lia|auto|]. intros x [<-|[]]. auto. }
  intros p Hp. exists (ist b nd s (p + 1) y). split; [|split].
  - unfold stream_inverse. rewrite <- (ist_0 b nd s y) at 1 by auto.
    apply (for_n_seq (fun p => ist b nd s p y)). intros i Hi. rewrite Eh.
    rewrite inverse_schedule_is by (try apply ist_length; auto; lia).
    rewrite is_step by (auto; lia). now rewrite Nat.add_1_r.
  - intros q Hq.
    assert ((p + 1) * 2 ^ b <= half) by (unfold half; apply Nat.mul_le_mono_r; lia).
    rewrite !ist_done by (auto; unfold early; lia). auto.
  - intros E. rewrite E. now apply ist_final.
Qed.

Example C06_example :
  let y := zreal [3; 1; 4; 1; 5; 9; 2; 6; 5; 3; 5; 8; 9; 7; 9; 3]%Z in
  exists z d, recompose 16 2 y = Ok z /\ stream_inverse 2 16 4 1 y = Ok d /\ d <> z /\
    firstn 2 d = firstn 2 z /\ stream_inverse 2 16 4 4 y = Ok z.
Proof.
  cbv zeta. eexists. eexists. split; [vm_compute; reflexivity|].
  split; [vm_compute; reflexivity|]. split; [discriminate|]. split; vm_compute; reflexivity.
Qed.

(** C07.  [m] pairs of buffers; the spectra of [x i] are computed with [na i] levels of
    decomposition, those of [y i] with [nb i]. *)
Theorem C07_spectral_product : forall (A : arith), arith_laws A ->
  forall k m (x y : nat -> list (cplx A)) (na nb : nat -> nat) nc,
  (forall i, i < m -> length (x i) = 2 ^ k /\ length (y i) = 2 ^ k /\ na i <= k /\ nb i <= k) ->
  nc <= k ->
  exists X Y : nat -> list (cplx A),
    (forall i, i < m -> forward_via k (na i) (x i) = Ok (X i) /\ forward_via k (nb i) (y i) = Ok (Y i))
    /\ inverse_via k nc
         (tab (2 ^ k) (fun p => csum m (fun i => cmul (nth p (X i) c0) (nth p (Y i) c0))))
       = Ok (tab (2 ^ k) (fun t => csum m (fun i => circ_conv (2 ^ k) (x i) (y i) t))).
Proof.
  intros A L k m x y na nb nc H Hc.
  exists (fun i => dif k (x i)), (fun i => dif k (y i)).
  assert (V : forall n (z : list (cplx A)), n <= k -> length z = 2 ^ k ->
              forward_via k n z = Ok (dif k z)).
  { intros n z Hn Hz. destruct (proj1 (C04_depth_irrelevant A k n z Hn Hz)) as (w & E1 & E2).
    rewrite E2, <- E1. pose proof (ForwardFFTUnordered_dif k z []) as E. rewrite !app_nil_r in E.
    auto. }
  split.
  { intros i Hi. destruct (H i Hi) as (? & ? & ? & ?). auto. }
  set (z := tab (2 ^ k) (fun t => csum m (fun i => circ_conv (2 ^ k) (x i) (y i) t))).
  assert (Hz : length z = 2 ^ k) by apply tab_length.
  match goal with |- inverse_via k nc ?w = _ => assert (Ew : w = dif k z) end.
  { unfold z. clear z Hz Hc.
    pose proof (dif_sum L k m (fun i => tab (2 ^ k) (circ_conv (2 ^ k) (x i) (y i)))) as E.
    cbv beta in E.
    rewrite (tab_ext (2 ^ k) (fun t => csum m (fun i => circ_conv (2 ^ k) (x i) (y i) t))
      (fun t => csum m (fun i => nth t (tab (2 ^ k) (circ_conv (2 ^ k) (x i) (y i))) c0))).
    2: { intros t Ht. apply csum_ext. intros i Hi. now rewrite tab_nth. }
    rewrite E by (intros; apply tab_length). apply tab_ext. intros p Hp. apply csum_ext.
    intros i Hi. destruct (H i Hi) as (Hx & Hy & _). rewrite dif_circ by auto.
    rewrite zipw_nth with (d1 := c0) (d2 := c0) by (rewrite dif_length; auto). reflexivity. }
  rewrite Ew. assert (Hw : length (dif k z) = 2 ^ k) by now apply dif_length.
  destruct (proj2 (C04_depth_irrelevant A k nc (dif k z) Hc Hw)) as (w & E1 & E2).
  rewrite E2, <- E1. pose proof (InverseFFTUnordered_idif k (dif k z) []) as E.
  rewrite !app_nil_r in E. rewrite E by auto. now rewrite idif_dif.
Qed.

Example C07_example :
  let x := zreal [3; 1; 4; 1]%Z in
  let y := zreal [1; 2; 0; 0]%Z in
  (X <- forward_via 2 1 x ;; Y <- forward_via 2 2 y ;; inverse_via 2 0 (zipw cmul X Y))
  = Ok (zreal [5; 7; 6; 9]%Z).
Proof. vm_compute. reflexivity. Qed.

Print Assumptions C01_forward_fft_is_dft.
Print Assumptions C02_fft_round_trip.
Print Assumptions C03_steps_in_any_order.
Print Assumptions C03_step_frame.
Print Assumptions C04_depth_irrelevant.
Print Assumptions C05_forward_schedule.
Print Assumptions C06_inverse_schedule.
Print Assumptions C07_spectral_product.
