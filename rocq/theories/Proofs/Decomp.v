(** * Segmented decompositions: steps, order of steps, depth *)
From Coq Require Import Ring Permutation.
From Verif.Model Require Import Base Arith Juce FFT FFTDecomposition.
From Verif.Spec Require Import Transform Compose.
From Verif.Proofs Require Import Lists ComplexAlg Butterfly FFTProof.

Lemma is_pow2_pow n : is_pow2 (2 ^ n) = true.
Proof. unfold is_pow2. rewrite Nat.log2_pow2 by lia. apply Nat.eqb_refl. Qed.

Lemma pow2_div a b : b <= a -> 2 ^ a / 2 ^ b = 2 ^ (a - b).
Proof.
  intros. replace a with (b + (a - b)) at 1 by lia. rewrite Nat.pow_add_r, Nat.mul_comm.
  apply Nat.div_mul, Nat.pow_nonzero. lia.
Qed.

Lemma pow2_div2 a : 2 ^ S a / 2 = 2 ^ a.
Proof. pose proof (pow2_div (S a) 1). simpl (2 ^ 1) in H. rewrite H by lia. f_equal. lia. Qed.

Section Decomp.
  Context {A : arith}.
  Notation C := (cplx A).

  (** ** one call *)
  Lemma dec_pre k l s cur :
    l + s <= k -> cur < 2 ^ s -> dec_preconditions (2 ^ k) (2 ^ l) (2 ^ s) cur = true.
  Proof.
    intros H Hc. unfold dec_preconditions. rewrite !is_pow2_pow.
    pose proof (pow2_pos k). pose proof (pow2_pos l). pose proof (pow2_pos s).
    assert (2 ^ s <= 2 ^ k) by (apply Nat.pow_le_mono_r; lia).
    rewrite !andb_true_iff, !Nat.ltb_lt, Nat.leb_le. repeat split; auto.
  Qed.

  Lemma seg_fwd_call l m s cur segs :
    s <= m -> cur < 2 ^ s -> length segs = 2 ^ l ->
    (forall x, In x segs -> length x = 2 ^ S m) ->
    SegmentedForwardDecompositionRadix2 (2 ^ (l + S m)) (2 ^ l) (2 ^ s) cur (concat segs)
    = Ok (concat (map (@fwd_seg A (2 ^ m) (cur * 2 ^ (m - s)) (2 ^ (m - s))) segs)).
  Proof.
    intros Hs Hc Hlen Hsegs. unfold SegmentedForwardDecompositionRadix2.
    rewrite assert_true by (apply dec_pre; lia). cbn [bind].
    rewrite pow2_div by lia. replace (l + S m - l) with (S m) by lia.
    rewrite pow2_div2, pow2_div by lia.
    rewrite <- (app_nil_r (concat segs)), <- (app_nil_r (concat (map _ segs))).
    apply segment_loop with (len := 2 ^ S m); auto.
    - intros i pre seg post Hi Hpre Hseg.
      unfold fwd_seg. apply butterfly_range with (base := i * 2 ^ S m); auto.
      + apply dec_fwd_point_bf.
      + assert (2 ^ m = 2 ^ s * 2 ^ (m - s)) by (rewrite <- Nat.pow_add_r; f_equal; lia).
        nia.
    - intros. apply bf_seg_length.
  Qed.

  Lemma seg_inv_call l m s cur segs :
    s <= m -> cur < 2 ^ s -> length segs = 2 ^ l ->
    (forall x, In x segs -> length x = 2 ^ S m) ->
    SegmentedInverseDecompositionRadix2 (2 ^ (l + S m)) (2 ^ l) (2 ^ s) cur (concat segs)
    = Ok (concat (map (@inv_seg A (2 ^ m) (cur * 2 ^ (m - s)) (2 ^ (m - s))) segs)).
  Proof.
    intros Hs Hc Hlen Hsegs. unfold SegmentedInverseDecompositionRadix2.
    rewrite assert_true by (apply dec_pre; lia). cbn [bind].
    rewrite pow2_div by lia. replace (l + S m - l) with (S m) by lia.
    rewrite pow2_div2, pow2_div by lia.
    rewrite <- (app_nil_r (concat segs)), <- (app_nil_r (concat (map _ segs))).
    apply segment_loop with (len := 2 ^ S m); auto.
    - intros i pre seg post Hi Hpre Hseg.
      unfold inv_seg. apply butterfly_range with (base := i * 2 ^ S m); auto.
      + apply dec_inv_point_bf.
      + assert (2 ^ m = 2 ^ s * 2 ^ (m - s)) by (rewrite <- Nat.pow_add_r; f_equal; lia).
        nia.
    - intros. apply bf_seg_length.
  Qed.

  (** ** cutting an array into equally long segments *)
  Fixpoint chop (len n : nat) (d : list C) : list (list C) :=
    match n with 0 => [] | S n' => firstn len d :: chop len n' (skipn len d) end.

  Lemma chop_length len n d : length (chop len n d) = n.
  Proof. revert d; induction n; simpl; auto. Qed.
  Lemma chop_concat len n d : length d = n * len -> concat (chop len n d) = d.
  Proof.
    revert d; induction n; intros d H; simpl in *.
    - now destruct d.
    - rewrite IHn; [apply firstn_skipn|]. rewrite skipn_length. lia.
  Qed.
  Lemma chop_in len n d s : length d = n * len -> In s (chop len n d) -> length s = len.
  Proof.
    revert d; induction n; intros d H Hin; simpl in *; [easy|].
    destruct Hin as [<-|Hin].
    - rewrite firstn_length. lia.
    - eapply IHn; [|eassumption]. rewrite skipn_length. lia.
  Qed.

  (** ** steps over sets of points commute *)
  Definition bf_set (f g : nat -> C -> C -> C) (h : nat) (D : nat -> bool) (s : list C) : list C :=
    tab (2 * h) (fun q =>
      if q <? h then if D q then f q (nth q s c0) (nth (q + h) s c0) else nth q s c0
      else if D (q - h) then g (q - h) (nth (q - h) s c0) (nth q s c0) else nth q s c0).

  Lemma bf_seg_set f g h a n s :
    bf_seg f g h a n s = bf_set f g h (fun q => (a <=? q) && (q <? a + n)) s.
  Proof. reflexivity. Qed.

  Lemma bf_set_ext f g h D D' s :
    (forall q, q < h -> D q = D' q) -> bf_set f g h D s = bf_set f g h D' s.
  Proof.
    intros H. apply tab_ext. intros q Hq. destruct (Nat.ltb_spec q h).
    - now rewrite H.
    - rewrite H by lia. reflexivity.
  Qed.

  Lemma bf_set_set f g h D E s :
    (forall q, q < h -> D q = true -> E q = false) ->
    bf_set f g h E (bf_set f g h D s) = bf_set f g h (fun q => D q || E q)%bool s.
  Proof.
    intros Hd. apply tab_ext. intros q Hq. unfold bf_set.
    destruct (Nat.ltb_spec q h).
    - rewrite !tab_nth by lia. specialize (Hd q H).
      destruct (Nat.ltb_spec q h); [|lia]. destruct (Nat.ltb_spec (q + h) h); [lia|].
      replace (q + h - h) with q by lia.
      destruct (D q) eqn:ED, (E q) eqn:EE; cbn [orb]; auto; exfalso; intuition congruence.
    - rewrite !tab_nth by lia. specialize (Hd (q - h)).
      destruct (Nat.ltb_spec (q - h) h); [|lia]. destruct (Nat.ltb_spec q h); [lia|].
      replace (q - h + h) with q by lia.
      destruct (D (q - h)) eqn:ED, (E (q - h)) eqn:EE; cbn [orb]; auto;
        exfalso; assert (q - h < h) by lia; intuition congruence.
  Qed.

  Lemma bf_set_false f g h s : length s = 2 * h -> bf_set f g h (fun _ => false) s = s.
  Proof.
    intros. symmetry. apply list_tab with (d := c0); auto. intros. now destruct (_ <? _).
  Qed.

  Definition in_steps (sz : nat) (l : list nat) (q : nat) : bool :=
    existsb (fun i => (i * sz <=? q) && (q <? i * sz + sz)) l.

  Lemma in_steps_spec sz l q :
    in_steps sz l q = true <-> exists i, In i l /\ i * sz <= q < i * sz + sz.
  Proof.
    unfold in_steps. rewrite existsb_exists. split; intros (i & Hi & H); exists i; split; auto.
    - bprop. lia.
    - btrue.
  Qed.

  Lemma run_steps_gen (segfun : nat -> nat -> nat -> list C -> list C) f g h sz
        (step : nat -> list C -> res (list C)) n ns :
    (forall a m s, segfun h a m s = bf_seg f g h a m s) ->
    (forall cur segs, cur < n -> length segs = ns -> (forall x, In x segs -> length x = 2 * h) ->
       step cur (concat segs) = Ok (concat (map (segfun h (cur * sz) sz) segs))) ->
    0 < sz ->
    forall order done segs, NoDup (order ++ done) -> (forall i, In i order -> i < n) ->
      length segs = ns -> (forall x, In x segs -> length x = 2 * h) ->
      run_steps step order (concat (map (bf_set f g h (in_steps sz done)) segs))
      = Ok (concat (map (bf_set f g h (in_steps sz (order ++ done))) segs)).
  Proof.
    intros Hf Hstep Hsz. induction order as [|i t IH]; intros done segs Hnd Hin Hl Hs.
    - reflexivity.
    - cbn [run_steps]. rewrite Hstep; [|apply Hin; now left|now rewrite map_length|].
      2: { intros x Hx. apply in_map_iff in Hx as (y & <- & _). apply tab_length. }
      cbn [bind]. rewrite map_map.
      rewrite (map_ext _ (bf_set f g h (in_steps sz (i :: done)))).
      + rewrite IH; auto.
        * do 2 f_equal. apply map_ext. intros s. apply bf_set_ext. intros q _.
          apply Bool.eq_iff_eq_true. rewrite !in_steps_spec.
          setoid_rewrite in_app_iff. simpl. clear.
          split; intros (j & Hj & ?); exists j; split; auto; rewrite ?in_app_iff in *; simpl in *; tauto.
        * apply (Permutation_NoDup (l := (i :: t) ++ done)); auto.
          simpl. apply Permutation_middle.
        * intros j Hj. apply Hin. now right.
      + intros s. rewrite Hf, bf_seg_set, bf_set_set.
        * apply bf_set_ext. intros q _. cbn [in_steps existsb]. apply orb_comm.
        * intros q _ Hq. apply in_steps_spec in Hq as (j & Hj & Hq).
          destruct (Nat.eq_dec i j) as [->|Hne].
          { exfalso. simpl in Hnd. inversion Hnd; subst. apply H1. apply in_app_iff. now right. }
          destruct ((i * sz <=? q) && (q <? i * sz + sz))%bool eqn:E; auto. bprop.
          exfalso. apply Hne. nia.
  Qed.

  Lemma steps_any_order (segfun : nat -> nat -> nat -> list C -> list C) f g h sz
        (step : nat -> list C -> res (list C)) n ns :
    (forall a m s, segfun h a m s = bf_seg f g h a m s) ->
    (forall cur segs, cur < n -> length segs = ns -> (forall x, In x segs -> length x = 2 * h) ->
       step cur (concat segs) = Ok (concat (map (segfun h (cur * sz) sz) segs))) ->
    0 < sz -> n * sz = h ->
    forall order segs, Permutation order (seq 0 n) ->
      length segs = ns -> (forall x, In x segs -> length x = 2 * h) ->
      run_steps step order (concat segs) = Ok (concat (map (segfun h 0 h) segs)).
  Proof.
    intros Hf Hstep Hsz Hn order segs HP Hl Hs.
    pose proof (run_steps_gen segfun f g h sz step n ns Hf Hstep Hsz order [] segs) as E.
    rewrite app_nil_r in E.
    rewrite <- (map_id segs) at 1. rewrite (map_ext_in id (bf_set f g h (in_steps sz []))).
    - rewrite E; auto.
      + do 2 f_equal. apply map_ext. intros s. rewrite Hf, bf_seg_set.
        apply bf_set_ext. intros q Hq. apply Bool.eq_iff_eq_true. rewrite in_steps_spec.
        split.
        * intros _. btrue.
        * intros _. exists (q / sz). split.
          -- apply Permutation_in with (l := seq 0 n); [now apply Permutation_sym|].
             apply in_seq. split; [lia|]. simpl. apply Nat.div_lt_upper_bound; nia.
          -- pose proof (Nat.div_mod q sz). pose proof (Nat.mod_upper_bound q sz). nia.
      + apply (Permutation_NoDup (l := seq 0 n)); [now apply Permutation_sym|apply seq_NoDup].
      + intros i Hi. apply (Permutation_in i HP) in Hi. apply in_seq in Hi. lia.
    - intros x Hx. symmetry. apply bf_set_false. auto.
  Qed.

  (** ** depth: cutting into sub-transforms *)
  Fixpoint dsegs (n k : nat) (x : list C) : list (list C) :=
    match n, k with
    | S n', S k' => dsegs n' k' (lo (2 ^ k') x) ++ dsegs n' k' (hi (2 ^ k') x)
    | _, _ => [x]
    end.

  Lemma dsegs_in n k x s : n <= k -> length x = 2 ^ k -> In s (dsegs n k x) -> length s = 2 ^ (k - n).
  Proof.
    revert k x; induction n; intros k x Hk Hx Hin.
    - simpl in Hin. destruct k; destruct Hin as [<-|[]]; auto.
    - destruct k; [lia|]. simpl in Hin. apply in_app_iff in Hin as [H|H];
        apply IHn in H; auto; try lia; first [apply lo_length|apply hi_length].
  Qed.
  Lemma dsegs_length n k x : n <= k -> length (dsegs n k x) = 2 ^ n.
  Proof.
    revert k x; induction n; intros k x Hk.
    - destruct k; reflexivity.
    - destruct k; [lia|]. cbn [dsegs]. rewrite app_length, !IHn by lia. simpl; lia.
  Qed.

  (** [nd] complete passes on the segments *)
  Definition decomp (n k : nat) (x : list C) : list C := concat (dsegs n k x).

  Lemma decomp_length n k x : n <= k -> length x = 2 ^ k -> length (decomp n k x) = 2 ^ k.
  Proof.
    intros Hk Hx. unfold decomp. rewrite concat_length_const with (n := 2 ^ (k - n)).
    - rewrite dsegs_length by auto. rewrite <- Nat.pow_add_r. f_equal. lia.
    - intros s. now apply dsegs_in.
  Qed.

  Lemma dif_dsegs n k x :
    n <= k -> length x = 2 ^ k -> concat (map (dif (k - n)) (dsegs n k x)) = dif k x.
  Proof.
    revert k x; induction n; intros k x Hk Hx.
    - rewrite Nat.sub_0_r. destruct k; cbn [dsegs map concat]; apply app_nil_r.
    - destruct k; [lia|]. cbn [dsegs dif]. rewrite map_app, concat_app.
      replace (S k - S n) with (k - n) by lia.
      rewrite !IHn by (try lia; first [apply lo_length|apply hi_length]). reflexivity.
  Qed.

  (** inverse passes, deepest level first, on a list of sub-transform results *)
  Fixpoint imerge (n k : nat) (y : list C) : list C :=
    match n, k with
    | S n', S k' =>
        merge (2 ^ k') (imerge n' k' (firstn (2 ^ k') y)) (imerge n' k' (skipn (2 ^ k') y))
    | _, _ => y
    end.
  Lemma imerge_length n k y : length y = 2 ^ k -> length (imerge n k y) = 2 ^ k.
  Proof.
    destruct n, k; cbn [imerge]; intros; auto. now rewrite merge_length.
  Qed.

  Lemma chop_app len n a b : length a = n * len -> forall m,
    chop len (n + m) (a ++ b) = chop len n a ++ chop len m b.
  Proof.
    revert a; induction n; intros a Ha m; simpl in *.
    - now destruct a.
    - f_equal.
      + rewrite firstn_app. replace (len - length a) with 0 by lia. now rewrite app_nil_r.
      + rewrite skipn_app. replace (len - length a) with 0 by lia. rewrite IHn; auto.
        rewrite skipn_length. lia.
  Qed.

  Lemma idif_chop n k y :
    n <= k -> length y = 2 ^ k ->
    imerge n k (concat (map (idif (k - n)) (chop (2 ^ (k - n)) (2 ^ n) y))) = idif k y.
  Proof.
    revert k y; induction n; intros k y Hk Hy.
    - rewrite Nat.sub_0_r. cbn [Nat.pow chop map concat imerge].
      rewrite app_nil_r. rewrite firstn_all2 by lia. now destruct k.
    - destruct k; [lia|]. cbn [imerge idif].
      replace (S k - S n) with (k - n) by lia.
      assert (E : 2 ^ k = 2 ^ n * 2 ^ (k - n)) by (rewrite <- Nat.pow_add_r; f_equal; lia).
      simpl in Hy.
      assert (H1 : length (firstn (2 ^ k) y) = 2 ^ k) by (rewrite firstn_length; lia).
      assert (H2 : length (skipn (2 ^ k) y) = 2 ^ k) by (rewrite skipn_length; lia).
      replace (2 ^ S n) with (2 ^ n + 2 ^ n) by (simpl; lia).
      replace (chop (2 ^ (k - n)) (2 ^ n + 2 ^ n) y)
        with (chop (2 ^ (k - n)) (2 ^ n) (firstn (2 ^ k) y)
              ++ chop (2 ^ (k - n)) (2 ^ n) (skipn (2 ^ k) y))
        by (rewrite <- chop_app by lia; now rewrite firstn_skipn).
      rewrite map_app, concat_app.
      assert (Hl : forall z, length z = 2 ^ k ->
                length (concat (map (idif (k - n)) (chop (2 ^ (k - n)) (2 ^ n) z))) = 2 ^ k).
      { intros z Hz. rewrite concat_length_const with (n := 2 ^ (k - n)).
        - rewrite map_length, chop_length. auto.
        - intros s Hin. apply in_map_iff in Hin as (w & <- & Hin). apply idif_length.
          eapply chop_in; [|eassumption]. lia. }
      rewrite firstn_app, skipn_app, !Hl by auto.
      rewrite Nat.sub_diag, firstn_O, skipn_O, app_nil_r.
      rewrite firstn_all2, skipn_all2 by (rewrite Hl; auto). cbn [app].
      rewrite !IHn by (auto; lia). reflexivity.
  Qed.

  (** passes as calls of the code *)
  Lemma fwd_passes n : forall l k segs,
    n <= k -> length segs = 2 ^ l -> (forall x, In x segs -> length x = 2 ^ k) ->
    for_from l n (fun level => SegmentedForwardDecompositionRadix2 (2 ^ (l + k)) (2 ^ level) 1 0)
             (concat segs)
    = Ok (concat (flat_map (dsegs n k) segs)).
  Proof.
    induction n; intros l k segs Hk Hl Hs.
    - cbn [for_from]. f_equal. f_equal. clear. induction segs; simpl; auto.
      destruct k; cbn [app]; now f_equal.
    - destruct k; [lia|]. cbn [for_from].
      pose proof (seg_fwd_call l k 0 0 segs) as E. change (2 ^ 0) with 1 in E.
      rewrite E by (auto; lia). cbn [bind]. clear E. rewrite Nat.sub_0_r.
      rewrite (map_ext _ (fun s => lo (2 ^ k) s ++ hi (2 ^ k) s)) by (intros; apply fwd_seg_full).
      set (f := fun s : list C => [lo (2 ^ k) s; hi (2 ^ k) s]).
      assert (E : concat (map (fun s => lo (2 ^ k) s ++ hi (2 ^ k) s) segs) = concat (flat_map f segs)).
      { clear. induction segs; simpl; auto. rewrite IHsegs. now rewrite <- app_assoc. }
      assert (El : forall l, length (flat_map f l) = 2 * length l).
      { induction l0; simpl in *; auto. rewrite IHl0. lia. }
      rewrite E. replace (l + S k) with (S l + k) by lia. rewrite IHn.
      + f_equal. f_equal. clear. induction segs; auto. cbn [flat_map f app].
        rewrite IHsegs. cbn [dsegs]. now rewrite app_assoc.
      + lia.
      + rewrite El, Hl. simpl; lia.
      + intros s Hin. apply in_flat_map in Hin as (x & _ & [<-|[<-|[]]]);
          [apply lo_length|apply hi_length].
  Qed.

  Lemma inv_passes n : forall l k segs,
    n <= k -> length segs = 2 ^ l -> (forall x, In x segs -> length x = 2 ^ k) ->
    for_down n (fun level1 =>
        SegmentedInverseDecompositionRadix2 (2 ^ (l + k)) (2 ^ (l + (level1 - 1))) 1 0)
             (concat segs)
    = Ok (concat (map (imerge n k) segs)).
  Proof.
    intros l.
    assert (G : forall n l k segs, n <= k -> length segs = 2 ^ l ->
       (forall x, In x segs -> length x = 2 ^ k) ->
       for_down n (fun level1 =>
          SegmentedInverseDecompositionRadix2 (2 ^ (l + k)) (2 ^ (l + (level1 - 1))) 1 0)
             (concat segs)
       = Ok (concat (map (imerge n k) segs))); [|apply G].
    clear n l. intros n.
    (* peel the last (outermost) level off the downward loop *)
    assert (down_last : forall St (body : nat -> St -> res St) n s,
       for_down (S n) body s = bind (for_down n (fun i => body (S i)) s) (body 1)).
    { intros St body m. induction m; intros s.
      - simpl. destruct (body 1 s); auto.
      - cbn [for_down] in *. destruct (body (S (S m)) s); cbn [bind]; auto. }
    assert (down_ext : forall St n (b b' : nat -> St -> res St) s,
       (forall i s, 1 <= i <= n -> b i s = b' i s) -> for_down n b s = for_down n b' s).
    { intros St m b b'. induction m; intros s H; auto. cbn [for_down]. rewrite H by lia.
      destruct (b' (S m) s); cbn [bind]; auto. apply IHm. intros; apply H; lia. }
    induction n; intros l k segs Hk Hl Hs.
    - cbn [for_down]. do 2 f_equal. rewrite <- (map_id segs) at 1. apply map_ext.
      intros; now destruct k.
    - destruct k; [lia|]. rewrite down_last.
      set (f := fun s : list C => [firstn (2 ^ k) s; skipn (2 ^ k) s]).
      assert (E : concat segs = concat (flat_map f segs)).
      { clear. induction segs; simpl; auto. rewrite IHsegs at 1.
        now rewrite app_assoc, firstn_skipn. }
      assert (El : forall l, length (flat_map f l) = 2 * length l).
      { induction l0; simpl in *; auto. rewrite IHl0. lia. }
      rewrite E.
      rewrite (down_ext _ n _ (fun level1 => SegmentedInverseDecompositionRadix2
                (2 ^ (S l + k)) (2 ^ (S l + (level1 - 1))) 1 0)).
      2: { intros i s Hi. f_equal; f_equal; lia. }
      rewrite IHn.
      + cbn [bind].
        set (g := fun s => imerge n k (firstn (2 ^ k) s) ++ imerge n k (skipn (2 ^ k) s)).
        replace (concat (map (imerge n k) (flat_map f segs))) with (concat (map g segs)).
        2: { unfold g, f. clear. induction segs; simpl; auto. rewrite IHsegs.
             now rewrite <- app_assoc. }
        assert (Hlen : forall s, In s segs -> length (firstn (2 ^ k) s) = 2 ^ k
                        /\ length (skipn (2 ^ k) s) = 2 ^ k).
        { intros s Hin. apply Hs in Hin. rewrite firstn_length, skipn_length.
          simpl in Hin. lia. }
        pose proof (seg_inv_call l k 0 0 (map g segs)) as E'. change (2 ^ 0) with 1 in E'.
        replace (l + (1 - 1)) with l by lia.
        rewrite E'; clear E'; try lia.
        * do 2 f_equal. rewrite map_map. apply map_ext_in. intros s Hin.
          destruct (Hlen s Hin). rewrite Nat.sub_0_r. unfold g.
          rewrite inv_seg_full by (apply imerge_length; auto). reflexivity.
        * now rewrite map_length.
        * intros s Hin. apply in_map_iff in Hin as (x & <- & Hin). destruct (Hlen x Hin).
          unfold g. rewrite app_length, !imerge_length by auto. simpl; lia.
      + lia.
      + rewrite El, Hl. simpl; lia.
      + intros s Hin. apply in_flat_map in Hin as (x & Hin & [<-|[<-|[]]]);
          apply Hs in Hin; rewrite ?firstn_length, ?skipn_length; simpl in Hin; lia.
  Qed.

  (** a routine run on every sub-buffer *)
  Lemma on_slice_mid (f : list C -> res (list C)) g pre seg post :
    f seg = Ok g -> length g = length seg ->
    on_slice f (length pre) (length seg) (pre ++ seg ++ post) = Ok (pre ++ g ++ post).
  Proof.
    intros Hf Hg. unfold on_slice.
    assert ((length pre + length seg <=? length (pre ++ seg ++ post)) = true) as ->
      by (apply Nat.leb_le; rewrite !app_length; lia).
    rewrite skipn_app, skipn_all2, Nat.sub_diag, skipn_O by lia. cbn [app].
    rewrite firstn_app, firstn_all2, Nat.sub_diag, firstn_O, app_nil_r by lia.
    rewrite Hf. cbn [bind]. f_equal.
    rewrite firstn_app, firstn_all2, Nat.sub_diag, firstn_O, app_nil_r by lia.
    do 2 f_equal.
    rewrite app_assoc. rewrite <- app_length. rewrite skipn_app, skipn_all2, Nat.sub_diag by lia.
    reflexivity.
  Qed.

  Lemma slices (f : list C -> res (list C)) g len segs :
    (forall s, In s segs -> length s = len /\ f s = Ok (g s) /\ length (g s) = len) ->
    for_n (length segs) (fun i => on_slice f (i * len) len) (concat segs)
    = Ok (concat (map g segs)).
  Proof.
    intros H.
    assert (G : forall segs pre m, length pre = m * len ->
      (forall s, In s segs -> length s = len /\ f s = Ok (g s) /\ length (g s) = len) ->
      for_from m (length segs) (fun i => on_slice f (i * len) len) (pre ++ concat segs)
      = Ok (pre ++ concat (map g segs))).
    { clear. induction segs as [|s t IH]; intros pre m Hp Hs; [reflexivity|].
      cbn [length for_from concat map].
      destruct (Hs s (or_introl eq_refl)) as (H1 & H2 & H3).
      rewrite <- Hp, <- H1 at 1. rewrite on_slice_mid with (g := g s) by (auto; lia).
      cbn [bind]. rewrite app_assoc, IH.
      - now rewrite <- app_assoc.
      - rewrite app_length. lia.
      - intros; apply Hs; now right. }
    specialize (G segs [] 0). apply G; auto.
  Qed.
End Decomp.
