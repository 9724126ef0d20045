(** * TimeDistributedUPC: convolution delayed by two partitions *)
From Verif.Model Require Import Base Arith Juce ComplexBuffer FFT FFTDecomposition
     DecompositionSchedule FrequencyDelayLine TimeDistributedUPC.
From Verif.Spec Require Import Transform Buffers Signal.
From Verif.Proofs Require Import Lists ComplexAlg Butterfly FFTProof Decomp Schedule Blocks Delay
     RealFFTProof Streams UPCProof.

(** ** everything maps zeros to zeros *)
Section Zeros.
  Context {A : arith} (Z : zero_laws A).
  Notation C := (cplx A).
  Definition zer (n : nat) : list C := tab n (fun _ => c0).

  Lemma zer_length n : length (zer n) = n. Proof. apply tab_length. Qed.
  Lemma zer_nth n i : nth i (zer n) c0 = c0.
  Proof.
    destruct (Nat.lt_ge_cases i n); [unfold zer; now rewrite tab_nth|]. apply nth_overflow. rewrite zer_length. lia.
  Qed.
  Lemma zer_firstn n m : m <= n -> firstn m (zer n) = zer m.
  Proof. intros. unfold zer. now rewrite tab_firstn, Nat.min_l. Qed.
  Lemma zer_skipn n m : skipn m (zer n) = zer (n - m).
  Proof. apply tab_skipn. Qed.
  Lemma zer_app n m : zer n ++ zer m = zer (n + m).
  Proof. unfold zer. now rewrite tab_app. Qed.

  Lemma csum_zer n (f : nat -> C) : (forall i, i < n -> f i = c0) -> csum n f = c0.
  Proof.
    induction n; intros H; auto. cbn [csum]. rewrite H, IHn by (auto; intros; apply H; lia). apply (cadd_00 Z).
  Qed.

  Lemma bf_zer f g h a n : (forall q, f q c0 c0 = c0) -> (forall q, g q c0 c0 = c0) ->
    bf_seg f g h a n (zer (2 * h)) = zer (2 * h).
  Proof.
    intros Hf Hg. unfold bf_seg, zer. apply tab_ext. intros q Hq. fold (zer (2 * h)).
    rewrite !zer_nth, Hf, Hg. bcase; auto.
  Qed.
  Lemma fwd_zer h a n : fwd_seg h a n (zer (2 * h)) = zer (2 * h).
  Proof. apply bf_zer; intros; unfold f_fwd, g_fwd; now rewrite ?(csub_00 Z), ?(cmul_0w Z), ?(cadd_00 Z). Qed.
  Lemma inv_zer h a n : inv_seg h a n (zer (2 * h)) = zer (2 * h).
  Proof.
    apply bf_zer; intros; unfold f_inv, g_inv; now rewrite (cmul_0w Z), ?(csub_00 Z), ?(cadd_00 Z), (cscale_0x Z).
  Qed.
  Lemma lo_zer h : lo h (zer (2 * h)) = zer h.
  Proof. unfold lo. apply tab_ext. intros. rewrite !zer_nth. apply (cadd_00 Z). Qed.
  Lemma hi_zer h : hi h (zer (2 * h)) = zer h.
  Proof. unfold hi. apply tab_ext. intros. rewrite !zer_nth, (csub_00 Z). apply (cmul_0w Z). Qed.
  Lemma merge_zer h : merge h (zer h) (zer h) = zer (2 * h).
  Proof.
    unfold merge. replace (2 * h) with (h + h) by lia. rewrite <- zer_app. unfold zer at 5 6.
    f_equal; apply tab_ext; intros; now rewrite !zer_nth, (cmul_0w Z), ?(csub_00 Z), ?(cadd_00 Z), (cscale_0x Z).
  Qed.
  Lemma dif_zer k : dif k (zer (2 ^ k)) = zer (2 ^ k).
  Proof.
    induction k; auto. cbn [dif]. change (2 ^ S k) with (2 * 2 ^ k). rewrite lo_zer, hi_zer, IHk.
    rewrite zer_app. f_equal. lia.
  Qed.
  Lemma idif_zer k : idif k (zer (2 ^ k)) = zer (2 ^ k).
  Proof.
    induction k; auto. cbn [idif]. change (2 ^ S k) with (2 * 2 ^ k).
    rewrite zer_firstn, zer_skipn by lia. replace (2 * 2 ^ k - 2 ^ k) with (2 ^ k) by lia.
    now rewrite IHk, merge_zer.
  Qed.
  Lemma dsegs_zer n : forall k, n <= k -> dsegs n k (zer (2 ^ k)) = repeat (zer (2 ^ (k - n))) (2 ^ n).
  Proof.
    induction n; intros k Hn.
    - rewrite Nat.sub_0_r. destruct k; reflexivity.
    - destruct k; [lia|]. cbn [dsegs]. change (2 ^ S k) with (2 * 2 ^ k).
      rewrite lo_zer, hi_zer, IHn by lia. rewrite <- repeat_app. cbn [Nat.sub]. f_equal. simpl. lia.
  Qed.
  Lemma concat_zer m n : concat (repeat (zer m) n) = zer (n * m).
  Proof. induction n; auto. cbn [repeat concat]. rewrite IHn, zer_app. reflexivity. Qed.
  Lemma decomp_zer n k : n <= k -> decomp n k (zer (2 ^ k)) = zer (2 ^ k).
  Proof.
    intros. unfold decomp. rewrite dsegs_zer, concat_zer by auto. f_equal.
    rewrite <- Nat.pow_add_r. f_equal. lia.
  Qed.
  Lemma imerge_zer n : forall k, imerge n k (zer (2 ^ k)) = zer (2 ^ k).
  Proof.
    induction n; intros k; auto. destruct k; auto. cbn [imerge]. change (2 ^ S k) with (2 * 2 ^ k).
    rewrite zer_firstn, zer_skipn by lia. replace (2 * 2 ^ k - 2 ^ k) with (2 ^ k) by lia.
    now rewrite IHn, merge_zer.
  Qed.

  Variable b : nat.
  Notation B := (2 ^ b).
  Lemma fs_zer n : forall s p, n <= s -> fs b n s p (zer (2 * 2 ^ (s + b))) = zer (2 * 2 ^ (s + b)).
  Proof.
    induction n; intros s p Hn; auto. cbn [fs]. rewrite fwd_zer. destruct s as [|s']; auto.
    destruct (p <? 2 ^ s'); auto. rewrite zer_firstn, zer_skipn by lia.
    replace (2 * 2 ^ (S s' + b) - 2 ^ (S s' + b)) with (2 ^ (S s' + b)) by lia.
    change (2 ^ (S s' + b)) with (2 * 2 ^ (s' + b)). rewrite IHn by lia. rewrite zer_app. f_equal. lia.
  Qed.
  Lemma ist_zer n : forall s p, ist b n s p (zer (2 * 2 ^ (s + b))) = zer (2 * 2 ^ (s + b)).
  Proof.
    induction n; intros s p; auto. destruct s as [|s']; auto. cbn [ist].
    set (h := 2 ^ (S s' + b)).
    change (2 * h) with (2 ^ (S (S s' + b))) at 1. rewrite (imerge_zer (S n)).
    rewrite zer_firstn, zer_skipn by lia.
    replace (2 * h - h) with h by lia. change h with (2 * 2 ^ (s' + b)) at 4 5.
    rewrite IHn. apply list_ext with (d := c0); rewrite tab_length; [now rewrite zer_length|].
    intros q Hq. rewrite tab_nth, !zer_nth by auto. bcase; auto; rewrite IHn; apply zer_nth.
  Qed.

  (** an empty stage buffer is what [p] silent blocks leave *)
  Lemma J_zero n s X : n <= s -> length X = 2 * 2 ^ (s + b) ->
    forall p, p <= 2 ^ s ->
    (forall q, early (2 ^ (s + b)) (p * B) q -> nth q X c0 = c0) ->
    J b n s p (zer (2 * 2 ^ (s + b))) X.
  Proof.
    intros Hn HX p. induction p; intros Hp H0; [apply J_0|].
    rewrite <- (fs_zer n s p Hn). rewrite <- Nat.add_1_r.
    assert (Hpb : (p + 1) * B <= 2 ^ (s + b)) by (apply pB; lia).
    apply fs_step; auto; try lia; [apply zer_length| |].
    - apply IHp; [lia|]. intros q Hq. apply H0. unfold early in *. lia.
    - intros q Hq. rewrite !zer_nth. split; symmetry; apply H0; unfold early; lia.
  Qed.
End Zeros.

(** ** the loops, on tabulated arrays *)
Section Loops.
  Context {A : arith}.
  Notation C := (cplx A).
  Definition inw (o n q : nat) : bool := (o <=? q) && (q <? o + n).

  Lemma inw_true o n q : inw o n q = true <-> o <= q < o + n.
  Proof. unfold inw. rewrite andb_true_iff, Nat.leb_le, Nat.ltb_lt. lia. Qed.
  Lemma inw_false o n q : inw o n q = false <-> ~ (o <= q < o + n).
  Proof. rewrite <- inw_true. destruct (inw o n q); intuition congruence. Qed.
  Lemma inw_spec o n q : Bool.reflect (o <= q < o + n) (inw o n q).
  Proof. destruct (inw o n q) eqn:E; constructor; [now apply inw_true|now apply inw_false]. Qed.
  Lemma inw_S o i q : inw o (S i) q = inw o i q || (q =? o + i).
  Proof. unfold inw. bcase; cbn; auto; lia. Qed.

  Lemma td_fill_tab p (block : list (sample A)) N (f : nat -> C) :
    p * length block + length block <= N ->
    td_fill p block (tab N f)
    = Ok (tab N (fun q => if inw (p * length block) (length block) q
                          then creal (nth (q - p * length block) block s0) else f q)).
  Proof.
    intros H. unfold td_fill. set (o := p * length block) in *.
    assert (E : tab N f = tab N (fun q => if inw o 0 q then creal (nth (q - o) block s0) else f q)).
    { apply tab_ext. intros. destruct (inw_spec o 0 i); auto. lia. }
    rewrite E.
    rewrite (for_n_seq (fun i => tab N (fun q => if inw o i q then creal (nth (q - o) block s0) else f q))).
    - reflexivity.
    - intros i Hi. rewrite get_ok with (d := s0) by auto. cbn [bind].
      rewrite set_tab by lia. f_equal. apply tab_ext. intros q Hq. rewrite inw_S.
      destruct (Nat.eqb_spec q (o + i)) as [->|].
      + rewrite orb_true_r. do 2 f_equal. lia.
      + now rewrite orb_false_r.
  Qed.

  Lemma td_transfer_tab o n N (f g : nat -> C) :
    o + n <= N ->
    td_transfer o n (tab N f, tab N g)
    = Ok (tab N (fun q => if inw o n q then c0 else f q),
          tab N (fun q => if inw o n q then f q else g q)).
  Proof.
    intros H. unfold td_transfer.
    assert (E : (tab N f, tab N g) = (tab N (fun q => if inw o 0 q then c0 else f q),
                                      tab N (fun q => if inw o 0 q then f q else g q))).
    { f_equal; apply tab_ext; intros; destruct (inw_spec o 0 i); auto; lia. }
    rewrite E.
    rewrite (for_n_seq (fun i => (tab N (fun q => if inw o i q then c0 else f q),
                                  tab N (fun q => if inw o i q then f q else g q)))).
    - reflexivity.
    - intros i Hi. rewrite get_tab by lia. cbn [bind]. rewrite set_tab by lia. cbn [bind].
      rewrite set_tab by lia. cbn [bind].
      replace (inw o i (o + i)) with false by (symmetry; apply inw_false; lia).
      do 2 f_equal; apply tab_ext; intros q Hq; rewrite inw_S;
        (destruct (Nat.eqb_spec q (o + i)) as [->|];
         [now rewrite orb_true_r|now rewrite orb_false_r]).
  Qed.

  (** multiply-accumulate of [K] blocks into a window that holds zeros *)
  Lemma td_multiply_tab (t : tdupc A) (f : fdl A) K o n N (hf : nat -> cbuf A) (xs hs : nat -> nat -> C) g :
    t_num_partitions t = K -> fdl_rep K f hf -> length (t_filters t) = K ->
    (forall i, i < K -> cb_read (hf i) 0 = Ok (tab N (xs i))) ->
    (forall i, i < K -> cb_read (nth i (t_filters t) (cb_make 0 0)) (t_filter_channel t)
                        = Ok (tab N (hs i))) ->
    o + n <= N -> (forall q, o <= q < o + n -> g q = c0) ->
    td_multiply t f o n (tab N g)
    = Ok (tab N (fun q => if inw o n q then csum K (fun i => cmul (xs i q) (hs i q)) else g q)).
  Proof.
    intros HK Hrep Hlen Hx Hh Hn Hg. unfold td_multiply. rewrite HK.
    assert (E : tab N g = tab N (fun q => if inw o n q then csum 0 (fun i => cmul (xs i q) (hs i q)) else g q)).
    { apply tab_ext. intros. destruct (inw_spec o n i); auto. }
    rewrite E.
    apply (for_n_seq (fun r => tab N (fun q => if inw o n q then csum r (fun i => cmul (xs i q) (hs i q)) else g q))).
    intros r Hr. rewrite (fdl_get_rep K f hf r Hrep Hr). cbn [bind]. rewrite Hx by auto. cbn [bind].
    rewrite get_ok with (d := cb_make 0 0) by lia. cbn [bind]. rewrite Hh by auto. cbn [bind].
    set (F := fun i => tab N (fun q => if inw o n q
       then csum (if inw o i q then S r else r) (fun i => cmul (xs i q) (hs i q)) else g q)).
    transitivity (Ok (F n)).
    2:{ unfold F. f_equal. apply tab_ext. intros q Hq. destruct (inw o n q); auto. }
    transitivity (for_n n (fun p stage_b =>
        b <- get stage_b (o + p) ;; x <- get (tab N (xs r)) (o + p) ;;
        h <- get (tab N (hs r)) (o + p) ;; set stage_b (o + p) (cadd b (cmul x h))) (F 0)).
    { f_equal. unfold F. apply tab_ext. intros q Hq. destruct (inw_spec o 0 q); auto; lia. }
    apply (for_n_seq F). intros i Hi. unfold F at 1. rewrite !get_tab by lia. cbn [bind].
    unfold F. rewrite set_tab by lia. f_equal. apply tab_ext. intros q Hq.
    rewrite inw_S. destruct (Nat.eqb_spec q (o + i)) as [->|].
    - rewrite orb_true_r.
      replace (inw o n (o + i)) with true by (symmetry; apply inw_true; lia).
      replace (inw o i (o + i)) with false by (symmetry; apply inw_false; lia). reflexivity.
    - now rewrite orb_false_r.
  Qed.

  Lemma on_slice_tab (f : list C -> res (list C)) o n N g l :
    o + n <= N -> f (tab n (fun i => g (o + i))) = Ok l -> length l = n ->
    on_slice f o n (tab N g) = Ok (tab N (fun q => if inw o n q then nth (q - o) l c0 else g q)).
  Proof.
    intros H E Hl. unfold on_slice. rewrite tab_length. destruct (Nat.leb_spec (o + n) N); [|lia].
    rewrite tab_skipn, tab_firstn, Nat.min_l, E by lia. cbn [bind]. f_equal.
    rewrite tab_firstn, Nat.min_l, tab_skipn by lia.
    apply list_tab with (d := c0).
    - rewrite !app_length, !tab_length. lia.
    - intros q Hq. rewrite !nth_app', !tab_length.
      destruct (inw_spec o n q); destruct (Nat.ltb_spec q o); try lia.
      + destruct (Nat.ltb_spec (q - o) (length l)); [auto|lia].
      + now rewrite tab_nth.
      + destruct (Nat.ltb_spec (q - o) (length l)); [lia|]. rewrite tab_nth by lia. f_equal. lia.
  Qed.

  Lemma td_output_tab (t : tdupc A) (block : list (sample A)) N P (fc : nat -> C) (ft : nat -> sample A) :
    t_partition t = P -> t_phase t * length block + length block <= P -> 2 * P <= N ->
    let o := t_phase t * length block in
    td_output t (tab N fc) (tab P ft) block
    = Ok (tab (length block) (fun i => sadd (fst (fc (o + i))) (ft (o + i))),
          tab P (fun q => if inw o (length block) q then fst (fc (q + P)) else ft q)).
  Proof.
    intros HP Ho HN o. unfold td_output. set (len := length block) in *. fold o.
    set (F := fun i => (tab len (fun j => if j <? i then sadd (fst (fc (o + j))) (ft (o + j)) else nth j block s0),
                        tab P (fun q => if inw o i q then fst (fc (q + P)) else ft q))).
    assert (E : (block, tab P ft) = F 0).
    { unfold F. f_equal.
      - apply list_tab with (d := s0); auto.
      - apply tab_ext. intros q Hq. destruct (inw_spec o 0 q); auto; lia. }
    rewrite E, (for_n_seq F).
    - unfold F. do 2 f_equal. apply tab_ext. intros j Hj. bcase; auto; lia.
    - intros i Hi. unfold F at 1. rewrite HP. rewrite !get_tab by lia. cbn [bind].
      rewrite set_tab by auto. cbn [bind]. rewrite set_tab by lia. cbn [bind].
      replace (inw o i (o + i)) with false by (symmetry; apply inw_false; lia).
      unfold F. do 2 f_equal.
      + apply tab_ext. intros j Hj. destruct (Nat.eqb_spec j i) as [->|]; bcase; auto; lia.
      + apply tab_ext. intros q Hq. rewrite inw_S. destruct (Nat.eqb_spec q (o + i)) as [->|].
        * now rewrite orb_true_r.
        * now rewrite orb_false_r.
  Qed.
End Loops.

(** ** two overlapping windows add up to the convolution *)
Section Identity.
  Context {A : arith} (L : arith_laws A).
  Let Sring := law_ring A L.
  Add Ring sring2 : Sring.
  Notation S := (sample A).

  Lemma ago_fir M (h x : nat -> S) e d :
    ago (fir M h x) e d = ssum M (fun j => smul (h j) (ago x e (d + j))).
  Proof.
    unfold ago at 1. destruct (Nat.leb_spec d e).
    - apply ssum_ext. intros j Hj. f_equal. apply ago_eq. lia.
    - rewrite <- (ssum_0 L M). apply ssum_ext. intros j Hj. rewrite ago_before by lia. ring.
  Qed.

  (** delaying the input delays the output *)
  Lemma fir_delay M (h x : nat -> S) D t : fir M h (fun i => ago x i D) t = ago (fir M h x) t D.
  Proof.
    rewrite ago_fir. apply ssum_ext. intros j Hj. f_equal. unfold ago. bcase; try lia; auto.
    f_equal. lia.
  Qed.

  Variables (k P K : nat) (h x : nat -> S).
  Hypothesis (HP : 2 ^ k = 2 * P).
  Notation N := (2 ^ k).

  Definition xw (m i q : nat) : S := if q <? P then ago x (m * P + q) (i * P) else s0.
  Definition hw (r q : nat) : S := if q <? P then h (r * P + q) else s0.
  Definition Xb (m i : nat) : list (cplx A) := tab N (fun q => creal (xw m i q)).
  Definition Hb (r : nat) : list (cplx A) := tab N (fun q => creal (hw r q)).
  Definition Gv (m i p : nat) : cplx A :=
    csum K (fun r => cmul (nth p (dif k (Xb m (i + r))) c0) (nth p (dif k (Hb r)) c0)).
  (** what comes out of the inverse transform, in any arithmetic ... *)
  Definition Zv (m i t : nat) : S := fst (nth t (idif k (tab N (Gv m i))) c0).
  (** ... and in exact arithmetic *)
  Definition Yv (m i t : nat) : S := ssum K (fun r => rcirc N (xw m (i + r)) (hw r) t).

  Lemma xw_shift m i q : xw (m + 1) (i + 1) q = xw m i q.
  Proof. unfold xw. bcase; auto. apply ago_eq. lia. Qed.
  Lemma Xb_shift m i : Xb (m + 1) (i + 1) = Xb m i.
  Proof. apply tab_ext. intros. now rewrite xw_shift. Qed.
  Lemma Gv_shift m i p : Gv (m + 1) (i + 1) p = Gv m i p.
  Proof.
    apply csum_ext. intros r Hr. replace (i + 1 + r) with (i + r + 1) by lia. now rewrite Xb_shift.
  Qed.
  Lemma Zv_shift m i t : Zv (m + 1) (i + 1) t = Zv m i t.
  Proof. unfold Zv. do 3 f_equal. apply tab_ext. intros. apply Gv_shift. Qed.
  Lemma Yv_shift m i t : Yv (m + 1) (i + 1) t = Yv m i t.
  Proof.
    apply ssum_ext. intros r Hr. unfold rcirc. apply ssum_ext. intros j Hj.
    replace (i + 1 + r) with (i + r + 1) by lia. now rewrite xw_shift.
  Qed.
  Lemma Xb_length m i : length (Xb m i) = N. Proof. apply tab_length. Qed.
  Lemma Hb_length r : length (Hb r) = N. Proof. apply tab_length. Qed.

  Lemma idif_G m i : idif k (tab N (Gv m i)) = tab N (fun t => creal (Yv m i t)).
  Proof.
    set (z := fun r => tab N (circ_conv N (Xb m (i + r)) (Hb r))).
    assert (Hz : forall r, r < K -> length (z r) = N) by (intros; apply tab_length).
    assert (E : tab N (Gv m i) = dif k (tab N (fun t => csum K (fun r => nth t (z r) c0)))).
    { rewrite (dif_sum L) by auto. apply tab_ext. intros p Hp. apply csum_ext. intros r Hr.
      unfold z. rewrite (dif_circ L) by (apply tab_length).
      rewrite zipw_nth with (d1 := c0) (d2 := c0) by
        (rewrite dif_length; [auto|apply tab_length]). reflexivity. }
    rewrite E, (idif_dif L) by apply tab_length. apply tab_ext. intros t Ht.
    unfold Yv. rewrite (creal_sum L). apply csum_ext. intros r Hr. unfold z. rewrite tab_nth by auto.
    unfold circ_conv, rcirc. rewrite (creal_sum L). apply csum_ext. intros j Hj.
    rewrite (creal_mul L). unfold Xb, Hb. rewrite !tab_nth; auto. apply Nat.mod_upper_bound. lia.
  Qed.

  Lemma Zv_Yv m i t : t < N -> Zv m i t = Yv m i t.
  Proof. intros Ht. unfold Zv. rewrite idif_G, tab_nth by auto. reflexivity. Qed.

  Lemma Yv_low m i q : q < P ->
    Yv m i q = ssum K (fun r => ssum P (fun l =>
      if l <=? q then smul (h (r * P + l)) (ago x (m * P + q) ((i + r) * P + l)) else s0)).
  Proof.
    intros Hq. apply ssum_ext. intros r Hr. unfold rcirc.
    rewrite (ssum_extend L (Datatypes.S q) N); [|lia|].
    - rewrite (ssum_extend L (Datatypes.S q) P) by (auto; intros; bcase; auto; lia).
      rewrite <- (ssum_rev L). apply ssum_ext. intros l Hl.
      destruct (Nat.leb_spec l q); [|lia].
      replace (Datatypes.S q - 1 - l) with (q - l) by lia.
      replace (q + N - (q - l)) with (l + 1 * N) by lia. rewrite Nat.mod_add, Nat.mod_small by lia.
      unfold xw, hw. bcase; try lia.
      rewrite (ago_eq x (m * P + (q - l)) ((i + r) * P) (m * P + q) ((i + r) * P + l)) by lia. ring.
    - intros j Hj. destruct (Nat.lt_ge_cases j P).
      + replace (hw r ((q + N - j) mod N)) with (@s0 A); [ring|].
        rewrite Nat.mod_small by lia. unfold hw. bcase; auto; lia.
      + unfold xw at 1. bcase; try lia. ring.
  Qed.

  Lemma Yv_high m i q : q < P ->
    Yv m (i + 1) (P + q) = ssum K (fun r => ssum P (fun l =>
      if l <=? q then s0 else smul (h (r * P + l)) (ago x (m * P + q) ((i + r) * P + l)))).
  Proof.
    intros Hq. apply ssum_ext. intros r Hr. unfold rcirc.
    transitivity (ssum P (fun j => smul (xw m (i + 1 + r) j) (hw r (P + q - j)))).
    { rewrite (ssum_extend L P N); [|lia|].
      - apply ssum_ext. intros j Hj. f_equal. f_equal. replace (P + q + N - j) with (P + q - j + 1 * N) by lia.
        rewrite Nat.mod_add, Nat.mod_small by lia. reflexivity.
      - intros j Hj. unfold xw. bcase; try lia. ring. }
    transitivity (ssum (Datatypes.S q + (P - Datatypes.S q))
                       (fun j => smul (xw m (i + 1 + r) j) (hw r (P + q - j)))).
    { f_equal. lia. }
    rewrite (ssum_app L).
    rewrite (ssum_ext (Datatypes.S q) _ (fun _ => s0)).
    2:{ intros j Hj. unfold hw. bcase; try lia. ring. }
    rewrite (ssum_0 L).
    transitivity (ssum (Datatypes.S q + (P - Datatypes.S q)) (fun l =>
      if l <=? q then s0 else smul (h (r * P + l)) (ago x (m * P + q) ((i + r) * P + l)))).
    2:{ f_equal. lia. }
    rewrite (ssum_app L). rewrite (ssum_ext (Datatypes.S q) _ (fun _ => s0)).
    2:{ intros j Hj. bcase; auto; lia. }
    rewrite (ssum_0 L). f_equal.
    rewrite <- (ssum_rev L). apply ssum_ext. intros j Hj.
    unfold xw, hw. bcase; try lia.
    replace (P + q - (Datatypes.S q + (P - Datatypes.S q - 1 - j))) with (Datatypes.S q + j) by lia.
    rewrite (ago_eq x (m * P + (Datatypes.S q + (P - Datatypes.S q - 1 - j))) ((i + 1 + r) * P)
                    (m * P + q) ((i + r) * P + (Datatypes.S q + j))) by lia. ring.
  Qed.

  Lemma Yv_sum m q : q < P ->
    sadd (Yv m 2 q) (Yv m 3 (P + q)) = ago (fir (K * P) h x) (m * P + q) (2 * P).
  Proof.
    intros Hq. rewrite Yv_low by auto. change 3 with (2 + 1). rewrite Yv_high by auto.
    rewrite <- (ssum_add L), ago_fir, (ssum_blocks L). apply ssum_ext. intros r Hr.
    rewrite <- (ssum_add L). apply ssum_ext. intros l Hl.
    replace (2 * P + (r * P + l)) with ((2 + r) * P + l) by lia. destruct (l <=? q); ring.
  Qed.
End Identity.

(** ** slices of an array *)
Section Slices.
  Context {T : Type}.
  Lemma div_slice len j q : 0 < len -> j * len <= q < j * len + len -> q / len = j /\ q mod len = q - j * len.
  Proof.
    intros H Hq. assert (E : q = (q - j * len) + j * len) by lia. split.
    - rewrite E, Nat.div_add, Nat.div_small by lia. lia.
    - rewrite E at 1. rewrite Nat.mod_add, Nat.mod_small by lia. reflexivity.
  Qed.
  Lemma slice_of len q : 0 < len -> q / len * len <= q < q / len * len + len.
  Proof.
    intros H. pose proof (Nat.div_mod q len ltac:(lia)). pose proof (Nat.mod_upper_bound q len ltac:(lia)). lia.
  Qed.
  Lemma slice_nth (segs : list (list T)) len d : 0 < len -> (forall x, In x segs -> length x = len) ->
    forall q, q < length segs * len -> nth q (concat segs) d = nth (q mod len) (nth (q / len) segs []) d.
  Proof.
    intros Hl. induction segs as [|a segs IH]; intros Hs q Hq; [simpl in Hq; lia|].
    cbn [concat]. rewrite nth_app', (Hs a) by now left. destruct (Nat.ltb_spec q len).
    - rewrite Nat.div_small, Nat.mod_small by lia. reflexivity.
    - simpl in Hq. rewrite IH by (try lia; intros; apply Hs; now right).
      assert (E : q = (q - len) + 1 * len) by lia. rewrite E at 3 4. rewrite Nat.mod_add, Nat.div_add by lia.
      rewrite Nat.add_1_r. reflexivity.
  Qed.
End Slices.

Lemma chop_nth {A : arith} len n (d : list (cplx A)) j : j < n ->
  nth j (chop len n d) [] = firstn len (skipn (j * len) d).
Proof.
  revert n d. induction j; intros n d Hj; (destruct n; [lia|]); cbn [chop nth]; auto.
  rewrite IHj by lia. now rewrite skipn_skipn'.
Qed.

Section Machine.
  Context {A : arith}.
  Variables (b s n off K fc : nat) (h x : nat -> sample A).
  Hypothesis (Hn : n <= s) (Hoff : off + 2 ^ S n <= 2 ^ s) (HK : 0 < K).
  Notation B := (2 ^ b).
  Notation P := (2 ^ (s + b)).
  Notation k := (S (s + b)).
  Notation N := (2 ^ S (s + b)).
  Notation sub := (2 ^ (S (s + b) - n)).
  Notation half := (2 ^ (s + b - n)).
  Notation X m i := (Xb k P x m i).
  Notation H r := (Hb k P h r).
  Notation G m i := (Gv k P K h x m i).
  Notation Y m i := (Zv k P K h x m i).

  Lemma sub_half : sub = 2 * half.
  Proof. replace (k - n) with (S (s + b - n)) by lia. reflexivity. Qed.
  Lemma sub_all : 2 ^ n * sub = N.
  Proof. rewrite <- Nat.pow_add_r. f_equal. lia. Qed.
  Lemma sub_pos : 0 < sub. Proof. apply pow2_pos. Qed.
  Lemma N2P : N = 2 * P. Proof. reflexivity. Qed.

  (** inverse sub-transforms of the product *)
  Definition U (m i : nat) : list (cplx A) :=
    concat (map (idif (k - n)) (chop sub (2 ^ n) (tab N (G m i)))).

  Lemma U_length m i : length (U m i) = N.
  Proof.
    unfold U. rewrite concat_length_const with (n := sub).
    - rewrite map_length, chop_length. apply sub_all.
    - intros y Hy. apply in_map_iff in Hy as (z & <- & Hz). apply idif_length.
      eapply chop_in; [|exact Hz]. rewrite tab_length. symmetry. apply sub_all.
  Qed.
  Lemma U_merge m i : imerge n k (U m i) = idif k (tab N (G m i)).
  Proof. unfold U. apply idif_chop; [lia|apply tab_length]. Qed.
  Lemma U_nth m i j r : j < 2 ^ n -> r < sub ->
    nth (j * sub + r) (U m i) c0 = nth r (idif (k - n) (tab sub (fun e => G m i (j * sub + e)))) c0.
  Proof.
    intros Hj Hr. pose proof sub_pos. unfold U. rewrite slice_nth with (len := sub); auto.
    - destruct (div_slice sub j (j * sub + r)) as [-> ->]; [auto|lia|].
      replace (j * sub + r - j * sub) with r by lia. f_equal.
      rewrite (nth_indep _ [] (idif (k - n) [])) by (rewrite map_length, chop_length; auto).
      rewrite map_nth. f_equal. rewrite chop_nth by auto.
      assert (j * sub + sub <= N) by (rewrite <- sub_all; nia).
      rewrite tab_skipn, tab_firstn, Nat.min_l by lia. reflexivity.
    - intros y Hy. apply in_map_iff in Hy as (z & <- & Hz). apply idif_length.
      eapply chop_in; [|exact Hz]. rewrite tab_length. symmetry. apply sub_all.
    - rewrite map_length, chop_length. nia.
  Qed.

  Definition Dv (m q : nat) : cplx A := nth q (decomp n k (X m 1)) c0.
  Lemma X_dif_nth m j r : j < 2 ^ n -> r < sub ->
    nth (j * sub + r) (dif k (X m 1)) c0 = nth r (dif (k - n) (tab sub (fun e => Dv m (j * sub + e)))) c0.
  Proof.
    intros Hj Hr. pose proof sub_pos.
    assert (Hin : forall y, In y (dsegs n k (X m 1)) -> length y = sub).
    { intros y Hy. eapply dsegs_in; [|apply Xb_length|exact Hy]. lia. }
    rewrite <- (dif_dsegs n k) by (try lia; apply Xb_length).
    rewrite slice_nth with (len := sub); auto.
    - destruct (div_slice sub j (j * sub + r)) as [-> ->]; [auto|lia|].
      replace (j * sub + r - j * sub) with r by lia. f_equal.
      rewrite (nth_indep _ [] (dif (k - n) [])) by (rewrite map_length, dsegs_length by lia; auto).
      rewrite map_nth. f_equal.
      apply list_tab with (d := c0).
      + apply Hin, nth_In. rewrite dsegs_length by lia. auto.
      + intros e He. unfold Dv, decomp. rewrite slice_nth with (len := sub); auto.
        * destruct (div_slice sub j (j * sub + e)) as [-> ->]; [auto|lia|]. f_equal. lia.
        * rewrite dsegs_length by lia. nia.
    - intros y Hy. apply in_map_iff in Hy as (z & <- & Hz). apply dif_length. auto.
    - rewrite map_length, dsegs_length by lia. nia.
  Qed.

  (** stage B and the newest block of the delay line after [a] active phases *)
  Definition bst (m a q : nat) : cplx A :=
    if a <=? 2 * (q / sub) then Dv m q
    else if a =? 2 * (q / sub) + 1 then (if q mod sub <? half then G m 1 q else c0)
    else nth q (U m 1) c0.
  Definition slot (m a q : nat) : cplx A :=
    if a <=? 2 * (q / sub) then c0 else nth q (dif k (X m 1)) c0.

  Definition buf1 (l : list (cplx A)) : cbuf A := {| cb_points := 2 * P; cb_data := [l] |}.
  Definition slots (m a i : nat) : cbuf A :=
    if i =? 0 then buf1 (tab N (slot m a)) else buf1 (dif k (X m (S i))).

  Definition td_static (t : tdupc A) : Prop :=
    t_partition t = P /\ t_points t = 2 * P /\ t_num_phases t = 2 ^ s /\ t_nd t = n /\
    t_num_partitions t = K /\ t_offset t = off /\ t_filter_channel t = fc /\
    length (t_filters t) = K /\
    forall r, r < K -> cb_read (nth r (t_filters t) (cb_make 0 0)) fc = Ok (dif k (H r)).

  Lemma dif_X_tab m i : dif k (X m i) = tab N (fun q => nth q (dif k (X m i)) c0).
  Proof.
    assert (E : length (dif k (X m i)) = N) by (apply dif_length, Xb_length).
    rewrite <- E. apply tab_of_list.
  Qed.
  Lemma dif_H_tab r : dif k (H r) = tab N (fun q => nth q (dif k (H r)) c0).
  Proof.
    assert (E : length (dif k (H r)) = N) by (apply dif_length, Hb_length).
    rewrite <- E. apply tab_of_list.
  Qed.

  Lemma multiply_ok t f m a o w g :
    td_static t -> fdl_rep K f (slots m a) -> o + w <= N ->
    (forall q, o <= q < o + w -> a <= 2 * (q / sub) -> False) ->
    (forall q, o <= q < o + w -> g q = c0) ->
    td_multiply t f o w (tab N g) = Ok (tab N (fun q => if inw o w q then G m 1 q else g q)).
  Proof.
    intros (_ & _ & _ & _ & S5 & _ & S7 & S8 & S9) Hf Ho Ha Hg.
    rewrite (td_multiply_tab t f K o w N (slots m a)
               (fun i q => if i =? 0 then slot m a q else nth q (dif k (X m (S i))) c0)
               (fun i q => nth q (dif k (H i)) c0)); auto.
    - f_equal. apply tab_ext. intros q Hq. destruct (inw_spec o w q) as [Hw|]; auto.
      apply csum_ext. intros i Hi. f_equal. destruct (Nat.eqb_spec i 0) as [->|]; auto.
      unfold slot. destruct (Nat.leb_spec a (2 * (q / sub))); auto. exfalso; eauto.
    - intros i Hi. unfold slots. destruct (Nat.eqb_spec i 0); [reflexivity|].
      unfold buf1, cb_read. cbn [cb_data get nth_error]. f_equal. apply dif_X_tab.
    - intros i Hi. rewrite S7, S9 by auto. f_equal. apply dif_H_tab.
  Qed.

  Lemma active_ok m t f a :
    td_static t -> t_phase t = off + a -> a < 2 ^ S n -> fdl_rep K f (slots m a) ->
    exists f', td_sub_transform t f (tab N (bst m a)) = Ok (f', tab N (bst m (a + 1))) /\
               fdl_rep K f' (slots m (a + 1)).
  Proof.
    intros Hst Hph Ha Hf. assert (Hst' := Hst). destruct Hst as (S1 & S2 & S3 & S4 & S5 & S6 & S7 & S8 & S9).
    pose proof sub_pos as Hsub. pose proof sub_half as Hhalf. pose proof sub_all as Hall.
    unfold td_sub_transform, td_sub_transform_with, td_active. rewrite S2, S4, S6, Hph.
    change (2 * P) with N.
    rewrite pow2_div by lia. cbv zeta.
    assert (Eh2 : sub / 2 = half) by (rewrite Hhalf, Nat.mul_comm, Nat.div_mul; lia). rewrite Eh2.
    change (2 ^ S n) with (2 * 2 ^ n) in *.
    destruct (Nat.leb_spec off (off + a)); [|lia].
    destruct (Nat.ltb_spec (off + a) (off + 2 ^ n * 2)); [|lia]. cbn [andb].
    replace (off + a - off) with a by lia.
    set (j := a / 2). assert (Hj2 : a = 2 * j + a mod 2) by (apply Nat.div_mod; lia).
    assert (Hjn : j < 2 ^ n) by (apply Nat.div_lt_upper_bound; lia).
    assert (Hm2 : a mod 2 < 2) by (apply Nat.mod_upper_bound; lia).
    assert (Hw : j * sub + sub <= N) by nia.
    assert (HF : forall q, j * sub <= q < j * sub + sub -> q / sub = j /\ q mod sub = q - j * sub).
    { intros. now apply div_slice. }
    assert (HF' : forall q, ~ (j * sub <= q < j * sub + sub) -> q / sub <> j).
    { intros q Hq E. pose proof (slice_of sub q Hsub). rewrite E in *. lia. }
    destruct (Nat.eqb_spec (a mod 2) 0) as [E0|E0].
    - (* first half of a sub-transform *)
      assert (Ea : a = 2 * j) by lia. cbn [negb].
      replace (a * half) with (j * sub) by nia.
      set (dj := dif (k - n) (tab sub (fun e => Dv m (j * sub + e)))).
      assert (Ldj : length dj = sub) by (apply dif_length, tab_length).
      rewrite (on_slice_tab _ (j * sub) sub N (bst m a) dj); auto.
      2:{ rewrite (tab_ext sub _ (fun e => Dv m (j * sub + e))).
          - pose proof (@ForwardFFTUnordered_dif A (k - n) (tab sub (fun e => Dv m (j * sub + e))) [] (tab_length _ _)) as E.
            rewrite !app_nil_r in E. exact E.
          - intros e He. unfold bst. destruct (HF (j * sub + e)) as [-> _]; [lia|].
            destruct (Nat.leb_spec a (2 * j)); [reflexivity|lia]. }
      cbn [bind]. rewrite (fdl_get_rep K f (slots m a) 0 Hf) by auto. cbn [bind].
      unfold slots at 1. cbn [Nat.eqb]. unfold buf1 at 1, cb_read. cbn [cb_data get nth_error bind].
      rewrite td_transfer_tab by auto. cbn [bind].
      unfold slots at 1. cbn [Nat.eqb]. unfold buf1 at 1, cb_write.
      cbn [cb_data cb_points set length Nat.ltb Nat.leb upd bind].
      match goal with |- context [fdl_put f 0 ?bb] => destruct (fdl_put_rep K f (slots m a) bb Hf) as (f' & Ef & Hf') end.
      rewrite Ef. cbn [bind].
      assert (Hf1 : fdl_rep K f' (slots m (a + 1))).
      { eapply fdl_rep_ext; [exact Hf'|]. intros i Hi. cbv beta. unfold slots.
        destruct (Nat.eqb_spec i 0) as [->|]; [|reflexivity].
        unfold buf1. do 2 f_equal. apply tab_ext. intros q Hq.
        destruct (inw_spec (j * sub) sub q) as [Hin|Hout].
        - unfold slot. destruct (HF q Hin) as [-> _]. destruct (Nat.leb_spec (a + 1) (2 * j)); [lia|].
          unfold dj. replace q with (j * sub + (q - j * sub)) at 2 by lia.
          rewrite X_dif_nth by lia. reflexivity.
        - unfold slot. specialize (HF' q Hout).
          destruct (Nat.leb_spec a (2 * (q / sub))), (Nat.leb_spec (a + 1) (2 * (q / sub))); auto; lia. }
      exists f'. split; auto.
      rewrite (multiply_ok t f' m (a + 1)); auto.
      + cbn [bind]. do 2 f_equal. apply tab_ext. intros q Hq. unfold bst.
        destruct (inw_spec (j * sub) half q) as [Hin|Hout].
        * destruct (HF q) as [-> Hr]; [lia|]. rewrite Hr.
          destruct (Nat.leb_spec (a + 1) (2 * j)); [lia|].
          destruct (Nat.eqb_spec (a + 1) (2 * j + 1)); [|lia].
          destruct (Nat.ltb_spec (q - j * sub) half); [reflexivity|lia].
        * destruct (inw_spec (j * sub) sub q) as [Hin2|Hout2].
          -- destruct (HF q Hin2) as [-> Hr]. rewrite Hr.
             destruct (Nat.leb_spec (a + 1) (2 * j)); [lia|].
             destruct (Nat.eqb_spec (a + 1) (2 * j + 1)); [|lia].
             destruct (Nat.ltb_spec (q - j * sub) half); [lia|reflexivity].
          -- specialize (HF' q Hout2).
             destruct (Nat.leb_spec a (2 * (q / sub))), (Nat.leb_spec (a + 1) (2 * (q / sub))); auto; try lia.
             destruct (Nat.eqb_spec a (2 * (q / sub) + 1)), (Nat.eqb_spec (a + 1) (2 * (q / sub) + 1)); auto; lia.
      + lia.
      + intros q Hq Hle. destruct (HF q) as [E _]; lia.
      + intros q Hq. destruct (inw_spec (j * sub) sub q); [reflexivity|lia].
    - (* second half *)
      assert (Ea : a = 2 * j + 1) by lia. cbn [negb bind].
      replace (a * half) with (j * sub + half) by nia.
      rewrite (multiply_ok t f m a); auto.
      2:{ lia. }
      2:{ intros q Hq Hle. destruct (HF q) as [E _]; lia. }
      2:{ intros q Hq. unfold bst. destruct (HF q) as [-> Hr]; [lia|]. rewrite Hr.
          destruct (Nat.leb_spec a (2 * j)); [lia|]. destruct (Nat.eqb_spec a (2 * j + 1)); [|lia].
          destruct (Nat.ltb_spec (q - j * sub) half); [lia|reflexivity]. }
      cbn [bind]. replace ((a - 1) / 2) with j.
      2:{ replace (a - 1) with (j * 2) by lia. now rewrite Nat.div_mul. }
      set (gj := idif (k - n) (tab sub (fun e => G m 1 (j * sub + e)))).
      rewrite (on_slice_tab _ (j * sub) sub N _ gj); auto.
      3:{ apply idif_length, tab_length. }
      2:{ rewrite (tab_ext sub _ (fun e => G m 1 (j * sub + e))).
          - pose proof (@InverseFFTUnordered_idif A (k - n) (tab sub (fun e => G m 1 (j * sub + e))) [] (tab_length _ _)) as E.
            rewrite !app_nil_r in E. exact E.
          - intros e He. destruct (inw_spec (j * sub + half) half (j * sub + e)); auto.
            unfold bst. destruct (HF (j * sub + e)) as [-> Hr]; [lia|]. rewrite Hr.
            destruct (Nat.leb_spec a (2 * j)); [lia|]. destruct (Nat.eqb_spec a (2 * j + 1)); [|lia].
            destruct (Nat.ltb_spec (j * sub + e - j * sub) half); [reflexivity|lia]. }
      cbn [bind]. exists f. split.
      + do 2 f_equal. apply tab_ext. intros q Hq.
        destruct (inw_spec (j * sub) sub q) as [Hin|Hout].
        * unfold bst. destruct (HF q Hin) as [-> Hr].
          destruct (Nat.leb_spec (a + 1) (2 * j)); [lia|]. destruct (Nat.eqb_spec (a + 1) (2 * j + 1)); [lia|].
          replace q with (j * sub + (q - j * sub)) at 2 by lia. rewrite U_nth by lia. reflexivity.
        * destruct (inw_spec (j * sub + half) half q); [lia|]. unfold bst. specialize (HF' q Hout).
          destruct (Nat.leb_spec a (2 * (q / sub))), (Nat.leb_spec (a + 1) (2 * (q / sub))); auto; try lia.
          destruct (Nat.eqb_spec a (2 * (q / sub) + 1)), (Nat.eqb_spec (a + 1) (2 * (q / sub) + 1)); auto; lia.
      + eapply fdl_rep_ext; [exact Hf|]. intros i Hi. unfold slots.
        destruct (Nat.eqb_spec i 0); [|reflexivity]. unfold buf1. do 2 f_equal. apply tab_ext. intros q Hq.
        unfold slot.
        destruct (Nat.leb_spec a (2 * (q / sub))), (Nat.leb_spec (a + 1) (2 * (q / sub))); auto; lia.
  Qed.

  Definition act (p : nat) : nat := Nat.min (p - off) (2 ^ S n).

  (** [p] phases of partition [m] done *)
  Definition td_mid (m p : nat) (t : tdupc A) : Prop :=
    td_static t /\
    (exists da, length da = N /\ J b n s p da (X m 0) /\
       (forall q, q < N -> ~ early P (p * B) q -> nth q da c0 = c0) /\
       st_rep (t_stages t) (buf1 da) (buf1 (tab N (bst m (act p)))) (buf1 (ist b n s p (U m 2)))) /\
    fdl_rep K (t_fdl t) (slots m (act p)) /\
    t_tail t = tab P (fun q => if q <? p * B then Y m 2 (P + q) else Y m 3 (P + q)).

  (** between two partitions, [m] partitions done *)
  Definition td_rest (m : nat) (t : tdupc A) : Prop :=
    td_static t /\
    (exists gc, length gc = N /\
       st_rep (t_stages t) (buf1 (decomp n k (X m 1))) (buf1 (U m 2)) (buf1 gc)) /\
    fdl_rep K (t_fdl t) (fun i => buf1 (dif k (X m (i + 2)))) /\
    t_tail t = tab P (fun q => Y m 3 (P + q)).

  Lemma cb_clear_buf1 l : length l = N -> cb_clear (buf1 l) = buf1 (zer N).
  Proof.
    intros E. unfold cb_clear, buf1. cbn [cb_points cb_data map]. do 2 f_equal.
    rewrite map_const_repeat, E. apply repeat_tab.
  Qed.

  Lemma decomp_X_tab m : decomp n k (X m 1) = tab N (Dv m).
  Proof.
    apply list_tab with (d := c0); [|reflexivity]. apply decomp_length; [lia|apply Xb_length].
  Qed.
  Lemma act_0 : act 0 = 0. Proof. reflexivity. Qed.

  Lemma begin_ok m t : td_rest m t ->
    exists t', td_begin_partition t = Ok t' /\ t_phase t' = t_phase t /\ td_mid m 0 t'.
  Proof.
    intros (Hst & (gc & Lgc & Hs) & Hf & Htail). unfold td_begin_partition.
    pose proof (st_promote_rep _ _ _ _ Hs) as Hp.
    rewrite (st_get_A _ _ _ _ Hp). cbn [bind].
    destruct (st_put_A _ _ _ _ (cb_clear (buf1 gc)) Hp) as (s1 & -> & Hs1). cbn [bind].
    destruct (fdl_next_rep K _ _ Hf) as (f1 & -> & Hf1). cbn [bind].
    rewrite (fdl_get_rep K _ _ 0 Hf1) by auto. cbn [bind].
    destruct (fdl_put_rep K _ _ (cb_clear (buf1 (dif k (X m (K - 1 + 2))))) Hf1) as (f2 & -> & Hf2). cbn [bind].
    eexists. split; [reflexivity|]. split; [reflexivity|].
    split; [exact Hst|]. cbn [td_with t_stages t_fdl t_tail]. split; [|split].
    - exists (zer N). split; [apply zer_length|]. split; [apply J_0|]. split; [intros; apply zer_nth|].
      rewrite cb_clear_buf1 in Hs1 by auto. rewrite ist_0 by (auto; apply U_length).
      rewrite act_0. replace (tab N (bst m 0)) with (decomp n k (X m 1)); [exact Hs1|].
      rewrite decomp_X_tab. apply tab_ext. intros q Hq. reflexivity.
    - eapply fdl_rep_ext; [exact Hf2|]. intros i Hi. cbv beta. unfold slots. rewrite act_0.
      destruct i as [|i]; cbn [Nat.eqb].
      + rewrite cb_clear_buf1 by (apply dif_length, Xb_length). reflexivity.
      + do 3 f_equal. lia.
    - rewrite Htail. apply tab_ext. intros q Hq. reflexivity.
  Qed.

  Lemma mid_final m t : td_mid m (2 ^ s) t -> td_rest (m + 1) t.
  Proof.
    intros (Hst & (da & Lda & HJ & _ & Hs) & Hf & Htail). split; auto.
    assert (Ha : act (2 ^ s) = 2 ^ S n) by (unfold act; lia).
    pose proof sub_pos as Hsub. pose proof sub_all as Hall.
    assert (Hq : forall q, q < N -> 2 ^ S n > 2 * (q / sub) + 1).
    { intros q Hq. assert (q / sub < 2 ^ n) by (apply Nat.div_lt_upper_bound; lia).
      change (2 ^ S n) with (2 * 2 ^ n). lia. }
    split; [|split].
    - exists (ist b n s (2 ^ s) (U m 2)). split; [apply ist_length, U_length|].
      assert (E1 : da = decomp n k (X (m + 1) 1)).
      { replace (X (m + 1) 1) with (X m 0) by exact (eq_sym (Xb_shift k P x N2P m 0)). apply (J_final b n s); auto. apply Xb_length. }
      assert (E2 : tab N (bst m (act (2 ^ s))) = U (m + 1) 2).
      { symmetry. apply list_tab with (d := c0); [apply U_length|]. intros q Hqn. rewrite Ha. unfold bst.
        specialize (Hq q Hqn).
        destruct (Nat.leb_spec (2 ^ S n) (2 * (q / sub))); [lia|].
        destruct (Nat.eqb_spec (2 ^ S n) (2 * (q / sub) + 1)); [lia|]. f_equal.
        unfold U. do 3 f_equal. apply tab_ext. intros p Hp. apply (Gv_shift k P K h x N2P m 1). }
      now rewrite <- E1, <- E2.
    - eapply fdl_rep_ext; [exact Hf|]. intros i Hi. unfold slots. destruct (Nat.eqb_spec i 0) as [->|].
      + unfold buf1. do 2 f_equal. replace (X (m + 1) (0 + 2)) with (X m 1) by exact (eq_sym (Xb_shift k P x N2P m 1)).
        rewrite dif_X_tab.
        apply tab_ext. intros q Hqn. unfold slot. rewrite Ha. specialize (Hq q Hqn).
        destruct (Nat.leb_spec (2 ^ S n) (2 * (q / sub))); [lia|]. reflexivity.
      + replace (i + 2) with (S i + 1) by lia. now rewrite (Xb_shift k P x N2P).
    - rewrite Htail. apply tab_ext. intros q Hqn. rewrite <- Nat.pow_add_r.
      destruct (Nat.ltb_spec q P); [|lia]. symmetry. apply (Zv_shift k P K h x N2P m 2).
  Qed.

  Definition td_at (m p : nat) (t : tdupc A) : Prop :=
    t_phase t = p /\ ((p = 0 /\ td_rest m t) \/ (0 < p < 2 ^ s /\ td_mid m p t)).

  Lemma read_buf1 l : cb_read (buf1 l) 0 = Ok l. Proof. reflexivity. Qed.
  Lemma write_buf1 l l' : cb_write (buf1 l) 0 l' = Ok (buf1 l'). Proof. reflexivity. Qed.

  Lemma process_ok m p t block :
    td_at m p t -> length block = B -> (forall i, i < B -> nth i block s0 = x (m * P + p * B + i)) ->
    exists t', td_process t block
               = Ok (t', tab B (fun i => sadd (Y m 2 (p * B + i)) (Y m 3 (P + (p * B + i))))) /\
      (if p + 1 =? 2 ^ s then td_at (m + 1) 0 t' else td_at m (p + 1) t').
  Proof.
    intros (Hph & Hat) Lb Hb.
    assert (HM : exists t1, (if t_phase t =? 0 then td_begin_partition t else Ok t) = Ok t1 /\
                            t_phase t1 = p /\ p < 2 ^ s /\ td_mid m p t1).
    { rewrite Hph. destruct Hat as [(-> & Hr)|(Hp & Hmid)].
      - destruct (begin_ok m t Hr) as (t1 & E & E1 & Hm). exists t1. cbn [Nat.eqb].
        pose proof (pow2_pos s). rewrite E1. auto.
      - exists t. destruct (Nat.eqb_spec p 0); [lia|]. repeat split; auto; try lia; apply Hmid. }
    destruct HM as (t1 & E1 & Hph1 & Hp & Hst & (da & Lda & HJ & H0 & Hs) & Hf & Htail).
    assert (Hst' := Hst). destruct Hst' as (S1 & S2 & S3 & S4 & S5 & S6 & S7 & S8 & S9).
    assert (Hpb : (p + 1) * B <= P) by (apply pB; lia).
    pose proof N2P as HN2.
    unfold td_process. rewrite E1. cbn [bind].
    rewrite (st_get_A _ _ _ _ Hs). cbn [bind]. rewrite read_buf1. cbn [bind].
    (* stage A *)
    pose proof (td_fill_tab p block N (fun q => nth q da c0)) as EF.
    rewrite <- Lda in EF at 2. rewrite <- (tab_of_list da c0), Lb in EF. rewrite Hph1.
    rewrite EF by lia. cbn [bind]. clear EF.
    set (da1 := tab N _).
    assert (Lda1 : length da1 = 2 * P) by apply tab_length.
    rewrite S4, S2, S3, forward_schedule_fs by auto. cbn [bind].
    rewrite write_buf1. cbn [bind].
    assert (Hda1 : forall q, q < N -> nth q da1 c0 =
              if inw (p * B) B q then creal (x (m * P + q)) else nth q da c0).
    { intros q Hq. unfold da1. rewrite tab_nth by auto. destruct (inw_spec (p * B) B q); auto.
      rewrite Hb by lia. do 2 f_equal. lia. }
    assert (HX0 : forall q, q < N -> nth q (X m 0) c0 = if q <? P then creal (x (m * P + q)) else c0).
    { intros q Hq. unfold Xb, xw. rewrite tab_nth by auto. bcase; auto. f_equal. apply ago_now. lia. }
    set (da2 := fs b n s p da1).
    assert (Lda2 : length da2 = N) by (apply fs_length; auto).
    assert (HJ2 : J b n s (p + 1) da2 (X m 0)).
    { apply fs_step; auto.
      - apply Xb_length.
      - apply (J_frame b n s p da); auto; [lia|]. intros q Hq. unfold early in Hq. rewrite Hda1 by lia.
        destruct (inw_spec (p * B) B q); auto; lia.
      - intros q Hq. rewrite !Hda1, !HX0 by lia.
        destruct (inw_spec (p * B) B q); [|lia]. destruct (inw_spec (p * B) B (q + P)); [lia|].
        bcase; try lia. split; auto. apply H0; [lia|]. unfold early. lia. }
    assert (H02 : forall q, q < N -> ~ early P ((p + 1) * B) q -> nth q da2 c0 = c0).
    { intros q Hq Hq'. unfold da2. rewrite fs_frame by auto. rewrite Hda1 by auto. unfold early in Hq'.
      destruct (inw_spec (p * B) B q); [lia|]. apply H0; auto. unfold early. lia. }
    match goal with |- context [st_put _ kA ?bb] => destruct (st_put_A _ _ _ _ bb Hs) as (s1 & Es1 & Hs1) end.
    rewrite Es1. cbn [bind].
    (* stage B *)
    rewrite (st_get_B _ _ _ _ Hs1). cbn [bind]. rewrite read_buf1. cbn [bind].
    assert (HB : exists f', td_sub_transform t1 (t_fdl t1) (tab N (bst m (act p)))
                            = Ok (f', tab N (bst m (act (p + 1)))) /\ fdl_rep K f' (slots m (act (p + 1)))).
    { destruct (td_active t1) eqn:Eact.
      - unfold td_active in Eact. rewrite S4, S6, Hph1 in Eact.
        apply andb_true_iff in Eact as [Ea1 Ea2]. apply Nat.leb_le in Ea1. apply Nat.ltb_lt in Ea2.
        assert (Ea : act p = p - off) by (unfold act; change (2 ^ S n) with (2 * 2 ^ n); lia).
        replace (act (p + 1)) with (act p + 1) by (unfold act in *; change (2 ^ S n) with (2 * 2 ^ n) in *; lia).
        apply active_ok; auto; [lia|]. rewrite Ea. change (2 ^ S n) with (2 * 2 ^ n). lia.
      - exists (t_fdl t1). unfold td_sub_transform, td_sub_transform_with. rewrite Eact.
        replace (act (p + 1)) with (act p); [auto|].
        unfold td_active in Eact. rewrite S4, S6, Hph1 in Eact.
        apply andb_false_iff in Eact as [Ea|Ea]; [apply Nat.leb_gt in Ea|apply Nat.ltb_ge in Ea];
          unfold act; change (2 ^ S n) with (2 * 2 ^ n); lia. }
    destruct HB as (f' & EB & Hf'). rewrite EB. cbn [bind].
    rewrite write_buf1. cbn [bind].
    match goal with |- context [st_put _ kB ?bb] => destruct (st_put_B _ _ _ _ bb Hs1) as (s2 & Es2 & Hs2) end.
    rewrite Es2. cbn [bind].
    (* stage C *)
    rewrite (st_get_C _ _ _ _ Hs2). cbn [bind]. rewrite read_buf1. cbn [bind].
    rewrite inverse_schedule_is by (auto; apply ist_length, U_length). cbn [bind].
    rewrite is_step by (auto; apply U_length).
    rewrite write_buf1. cbn [bind].
    match goal with |- context [st_put _ kC ?bb] => destruct (st_put_C _ _ _ _ bb Hs2) as (s3 & Es3 & Hs3) end.
    rewrite Es3. cbn [bind].
    set (dc := ist b n s (p + 1) (U m 2)).
    assert (Ldc : length dc = N) by (apply ist_length, U_length).
    assert (Hdc : forall q, q < P -> q < (p + 1) * B -> fst (nth q dc c0) = Y m 2 q /\
                                                 fst (nth (q + P) dc c0) = Y m 2 (P + q)).
    { intros q Hq1 Hq2. unfold dc. rewrite !ist_done by (try lia; try apply U_length; unfold early; lia).
      rewrite U_merge. unfold Zv. split; auto. do 2 f_equal. lia. }
    pose proof (td_output_tab t1 block N P (fun q => nth q dc c0)) as EO. cbv zeta in EO.
    assert (Edc : tab N (fun q => nth q dc c0) = dc) by (rewrite <- Ldc; symmetry; apply tab_of_list).
    rewrite Edc, Lb, Hph1 in EO.
    rewrite Htail, EO by (auto; lia). cbn [bind]. clear EO.
    unfold umod. destruct (Nat.eqb_spec (2 ^ s) 0); [pose proof (pow2_pos s); lia|]. cbn [bind].
    eexists. split.
    { f_equal. f_equal. apply tab_ext. intros i Hi.
      destruct (Hdc (p * B + i)) as [-> _]; try lia.
      destruct (Nat.ltb_spec (p * B + i) (p * B)); [lia|]. reflexivity. }
    (* the new state *)
    assert (Hnew : forall ph, td_mid m (p + 1)
      (td_with t1 ph f' s3 (tab P (fun q => if inw (p * B) B q then fst (nth (q + P) dc c0)
          else if q <? p * B then Y m 2 (P + q) else Y m 3 (P + q))))).
    { intros ph. split; [exact Hst|]. cbn [td_with t_stages t_fdl t_tail]. split; [|split].
      - exists da2. split; auto.
      - exact Hf'.
      - apply tab_ext. intros q Hq. destruct (inw_spec (p * B) B q).
        + destruct (Hdc q) as [_ ->]; try lia.
          destruct (Nat.ltb_spec q ((p + 1) * B)); [auto|lia].
        + bcase; auto; lia. }
    destruct (Nat.eqb_spec (p + 1) (2 ^ s)) as [Ef|Ef].
    - split; [cbn [td_with t_phase]; rewrite Ef; apply Nat.mod_same; auto|]. left. split; auto.
      apply mid_final. rewrite <- Ef. apply Hnew.
    - split; [cbn [td_with t_phase]; apply Nat.mod_small; lia|]. right. split; [lia|]. apply Hnew.
  Qed.

  (** in exact arithmetic *)
  Lemma machine_exact (L : arith_laws A) m q : q < P ->
    sadd (Y m 2 q) (Y m 3 (P + q)) = ago (fir (K * P) h x) (m * P + q) (2 * P).
  Proof.
    intros Hq. pose proof N2P. rewrite !(Zv_Yv L) by (auto; lia). now apply (Yv_sum L).
  Qed.
End Machine.
