(** * In-place butterfly loops as functions on segments *)
From Coq Require Import Ring.
From Verif.Model Require Import Base Arith Juce FFT FFTDecomposition.
From Verif.Spec Require Import Transform.
From Verif.Proofs Require Import Lists ComplexAlg.

Section Butterfly.
  Context {A : arith}.
  Notation C := (cplx A).

  (** the points [a .. a+n) of both halves of a segment of [2h] points replaced by
      [f] and [g] of the pair *)
  Definition bf_seg (f g : nat -> C -> C -> C) (h a n : nat) (s : list C) : list C :=
    tab (2 * h) (fun q =>
      if q <? h
      then if (a <=? q) && (q <? a + n) then f q (nth q s c0) (nth (q + h) s c0) else nth q s c0
      else if (a <=? q - h) && (q - h <? a + n)
           then g (q - h) (nth (q - h) s c0) (nth q s c0) else nth q s c0).

  Lemma bf_seg_length f g h a n s : length (bf_seg f g h a n s) = 2 * h.
  Proof. apply tab_length. Qed.

  Lemma bf_seg_0 f g h a s : length s = 2 * h -> bf_seg f g h a 0 s = s.
  Proof.
    intros H. symmetry. apply list_tab with (d := c0); auto. intros.
    bcase; auto; lia.
  Qed.

  (** a loop body that is one butterfly *)
  Definition is_butterfly (f g : nat -> C -> C -> C) (h base : nat)
             (point : nat -> list C -> res (list C)) : Prop :=
    forall pre seg post e, length pre = base -> length seg = 2 * h -> e < h ->
      point e (pre ++ seg ++ post) =
      Ok (pre ++ upd (upd seg e (f e (nth e seg c0) (nth (e + h) seg c0)))
                     (e + h) (g e (nth e seg c0) (nth (e + h) seg c0)) ++ post).

  Lemma butterfly_range f g h base point :
    is_butterfly f g h base point ->
    forall a n pre seg post, length pre = base -> length seg = 2 * h -> a + n <= h ->
      for_from a n point (pre ++ seg ++ post) = Ok (pre ++ bf_seg f g h a n seg ++ post).
  Proof.
    intros HB a n pre seg post Hpre Hseg Hn.
    pose proof (for_from_seq (fun i => pre ++ bf_seg f g h a (i - a) seg ++ post) point a n) as E.
    cbn beta in E. rewrite Nat.sub_diag, bf_seg_0 in E by auto.
    replace (a + n - a) with n in E by lia. apply E. clear E.
    intros i Hi. rewrite HB; [|auto|apply bf_seg_length|lia].
    do 2 f_equal. f_equal. unfold bf_seg. rewrite !upd_tab. apply tab_ext. intros q Hq.
    rewrite !tab_nth by lia. bcase; subst; try lia; auto;
      replace (i + h - h) with i by lia; reflexivity.
  Qed.

  (** the loop over the segments *)
  Lemma segment_loop (op : list C -> list C) len (body : nat -> list C -> res (list C)) m :
    (forall i pre seg post, i < m -> length pre = i * len -> length seg = len ->
       body i (pre ++ seg ++ post) = Ok (pre ++ op seg ++ post)) ->
    (forall seg, length seg = len -> length (op seg) = len) ->
    forall segs post, length segs = m -> (forall s, In s segs -> length s = len) ->
      for_n m body (concat segs ++ post) = Ok (concat (map op segs) ++ post).
  Proof.
    intros HB Hlen segs post Hm Hsegs.
    assert (G : forall segs g0 pre, length pre = g0 * len -> g0 + length segs <= m ->
               (forall s, In s segs -> length s = len) ->
               for_from g0 (length segs) body (pre ++ concat segs ++ post) =
               Ok (pre ++ concat (map op segs) ++ post)).
    { clear segs Hm Hsegs. induction segs as [|s t IH]; intros g0 pre Hpre Hg Hs; [reflexivity|].
      cbn [length for_from concat map].
      rewrite <- app_assoc. rewrite HB; [|cbn in Hg; lia|auto|apply Hs; now left].
      cbn [bind]. rewrite <- !app_assoc.
      replace (pre ++ op s ++ concat t ++ post) with ((pre ++ op s) ++ concat t ++ post)
        by (now rewrite <- app_assoc).
      rewrite IH.
      - now rewrite <- !app_assoc.
      - rewrite app_length, Hpre, Hlen by (apply Hs; now left). lia.
      - cbn in Hg. lia.
      - intros; apply Hs; now right. }
    subst m. unfold for_n. specialize (G segs 0 []). cbn [app] in G. apply G; auto.
  Qed.

  (** ** the four butterflies of the code *)
  Definition f_fwd : nat -> C -> C -> C := fun _ x y => cadd x y.
  Definition g_fwd (w : C) : nat -> C -> C -> C := fun e x y => cmul (csub x y) (spow w e).
  Definition f_inv (w : C) : nat -> C -> C -> C :=
    fun e x y => cscale (cadd x (cmul y (spow w e))) shalf.
  Definition g_inv (w : C) : nat -> C -> C -> C :=
    fun e x y => cscale (csub x (cmul y (spow w e))) shalf.

  Lemma fft_fwd_point_bf w h base :
    is_butterfly f_fwd (g_fwd w) h base (fft_fwd_point w base h).
  Proof.
    intros pre seg post e Hpre Hseg He. unfold fft_fwd_point. rewrite <- Hpre.
    rewrite get_app_mid with (d := c0) by lia. cbn [bind].
    rewrite get_app_mid with (d := c0) by lia. cbn [bind].
    rewrite set_app_mid by lia. cbn [bind].
    rewrite get_app_mid with (d := c0) by (rewrite upd_length; lia). cbn [bind].
    rewrite upd_nth_other by lia.
    rewrite set_app_mid by (rewrite upd_length; lia). reflexivity.
  Qed.

  Lemma upd_comm {T} (l : list T) i j v w :
    i <> j -> upd (upd l i v) j w = upd (upd l j w) i v.
  Proof.
    revert i j; induction l; intros i j H; simpl; auto.
    destruct i, j; simpl; auto; try lia. f_equal. apply IHl. lia.
  Qed.

  Lemma fft_inv_point_bf w h base :
    is_butterfly (f_inv w) (g_inv w) h base (fft_inv_point w base h).
  Proof.
    intros pre seg post e Hpre Hseg He. unfold fft_inv_point. rewrite <- Hpre.
    rewrite get_app_mid with (d := c0) by lia. cbn [bind].
    rewrite get_app_mid with (d := c0) by lia. cbn [bind].
    rewrite set_app_mid by lia. cbn [bind].
    rewrite get_app_mid with (d := c0) by (rewrite upd_length; lia). cbn [bind].
    rewrite upd_nth_other by lia.
    rewrite set_app_mid by (rewrite upd_length; lia).
    rewrite upd_comm by lia. reflexivity.
  Qed.

  Lemma dec_fwd_point_bf w h base :
    is_butterfly f_fwd (g_fwd w) h base (dec_fwd_point w base (2 * h) h).
  Proof.
    intros pre seg post e Hpre Hseg He. unfold dec_fwd_point.
    rewrite assert_true by (apply Nat.ltb_lt; lia). cbn [bind].
    replace (h + e) with (e + h) by lia. now apply fft_fwd_point_bf.
  Qed.

  Lemma dec_inv_point_bf w h base :
    is_butterfly (f_inv w) (g_inv w) h base (dec_inv_point w base (2 * h) h).
  Proof.
    intros pre seg post e Hpre Hseg He. unfold dec_inv_point.
    rewrite assert_true by (apply Nat.ltb_lt; lia). cbn [bind].
    replace (h + e) with (e + h) by lia. now apply fft_inv_point_bf.
  Qed.

  Definition fwd_seg (h a n : nat) := bf_seg f_fwd (g_fwd (cis_neg (2 * h))) h a n.
  Definition inv_seg (h a n : nat) :=
    bf_seg (f_inv (cis (2 * h))) (g_inv (cis (2 * h))) h a n.

  (** ** whole passes *)
  (** upper and lower half of a forward butterfly pass *)
  Definition lo (h : nat) (s : list C) : list C :=
    tab h (fun q => cadd (nth q s c0) (nth (q + h) s c0)).
  Definition hi (h : nat) (s : list C) : list C :=
    tab h (fun q => cmul (csub (nth q s c0) (nth (q + h) s c0)) (spow (cis_neg (2 * h)) q)).
  Definition merge (h : nat) (a b : list C) : list C :=
    tab h (fun q => cscale (cadd (nth q a c0) (cmul (nth q b c0) (spow (cis (2 * h)) q))) shalf)
    ++ tab h (fun q =>
         cscale (csub (nth q a c0) (cmul (nth q b c0) (spow (cis (2 * h)) q))) shalf).

  Lemma fwd_seg_full h s : fwd_seg h 0 h s = lo h s ++ hi h s.
  Proof.
    unfold fwd_seg, bf_seg, lo, hi. rewrite tab_double.
    f_equal; apply tab_ext; intros q Hq; bcase; try lia; auto.
    replace (h + q - h) with q by lia. replace (h + q) with (q + h) by lia. reflexivity.
  Qed.

  Lemma inv_seg_full h a b :
    length a = h -> length b = h -> inv_seg h 0 h (a ++ b) = merge h a b.
  Proof.
    intros Ha Hb. unfold inv_seg, bf_seg, merge. rewrite tab_double.
    f_equal; apply tab_ext; intros q Hq; bcase; try lia; unfold f_inv, g_inv.
    - rewrite app_nth1 by lia. rewrite app_nth2 by lia. now replace (q + h - length a) with q by lia.
    - replace (h + q - h) with q by lia. rewrite app_nth1 by lia. rewrite app_nth2 by lia.
      now replace (h + q - length a) with q by lia.
  Qed.

  Lemma lo_length h s : length (lo h s) = h. Proof. apply tab_length. Qed.
  Lemma hi_length h s : length (hi h s) = h. Proof. apply tab_length. Qed.
  Lemma merge_length h a b : length (merge h a b) = 2 * h.
  Proof. unfold merge. rewrite app_length, !tab_length. lia. Qed.

  Lemma fft_fwd_level_segs d segs post :
    (forall s, In s segs -> length s = 2 ^ S d) ->
    fft_fwd_level (length segs * 2 ^ S d) (S d) (concat segs ++ post)
    = Ok (concat (map (fun s => lo (2 ^ d) s ++ hi (2 ^ d) s) segs) ++ post).
  Proof.
    intros Hs. unfold fft_fwd_level.
    rewrite Nat.div_mul by (apply Nat.pow_nonzero; lia).
    assert (E2 : 2 ^ S d = 2 * 2 ^ d) by reflexivity.
    replace (2 ^ S d / 2) with (2 ^ d) by (rewrite E2, Nat.mul_comm, Nat.div_mul; lia).
    apply segment_loop with (len := 2 ^ S d); auto.
    - intros i pre seg post' Hi Hpre Hseg. unfold for_n.
      rewrite butterfly_range with (1 := fft_fwd_point_bf _ _ _); auto.
      rewrite E2. fold (fwd_seg (2 ^ d) 0 (2 ^ d)). now rewrite fwd_seg_full.
    - intros. rewrite app_length, lo_length, hi_length. lia.
  Qed.

  Lemma fft_inv_level_segs d segs post :
    (forall s, In s segs -> length s = 2 ^ S d) ->
    fft_inv_level (length segs * 2 ^ S d) (S d) (concat segs ++ post)
    = Ok (concat (map (fun s => merge (2 ^ d) (firstn (2 ^ d) s) (skipn (2 ^ d) s)) segs) ++ post).
  Proof.
    intros Hs. unfold fft_inv_level.
    rewrite Nat.div_mul by (apply Nat.pow_nonzero; lia).
    assert (E2 : 2 ^ S d = 2 * 2 ^ d) by reflexivity.
    replace (2 ^ S d / 2) with (2 ^ d) by (rewrite E2, Nat.mul_comm, Nat.div_mul; lia).
    apply segment_loop with (len := 2 ^ S d); auto.
    - intros i pre seg post' Hi Hpre Hseg. unfold for_n.
      rewrite butterfly_range with (1 := fft_inv_point_bf _ _ _); auto.
      rewrite E2. fold (inv_seg (2 ^ d) 0 (2 ^ d)).
      rewrite <- (firstn_skipn (2 ^ d) seg) at 1. rewrite inv_seg_full; auto.
      + rewrite firstn_length. lia.
      + rewrite skipn_length. lia.
    - intros. rewrite merge_length. lia.
  Qed.

  (** ** the recursive transforms *)
  Fixpoint dif (k : nat) (x : list C) : list C :=
    match k with
    | 0 => x
    | S k' => dif k' (lo (2 ^ k') x) ++ dif k' (hi (2 ^ k') x)
    end.
  Fixpoint idif (k : nat) (y : list C) : list C :=
    match k with
    | 0 => y
    | S k' => merge (2 ^ k') (idif k' (firstn (2 ^ k') y)) (idif k' (skipn (2 ^ k') y))
    end.

  Lemma dif_length k x : length x = 2 ^ k -> length (dif k x) = 2 ^ k.
  Proof.
    revert x; induction k; intros; auto. cbn [dif]. rewrite app_length, !IHk.
    - simpl; lia.
    - apply hi_length.
    - apply lo_length.
  Qed.
  Lemma idif_length k x : length x = 2 ^ k -> length (idif k x) = 2 ^ k.
  Proof. destruct k; intros; auto. cbn [idif]. now rewrite merge_length. Qed.

  Lemma forward_segs k segs post :
    (forall s, In s segs -> length s = 2 ^ k) ->
    for_down k (fft_fwd_level (length segs * 2 ^ k)) (concat segs ++ post)
    = Ok (concat (map (dif k) segs) ++ post).
  Proof.
    revert segs; induction k; intros segs Hs.
    - simpl. rewrite (map_ext _ id) by reflexivity. now rewrite map_id.
    - cbn [for_down]. rewrite fft_fwd_level_segs by auto. cbn [bind].
      set (f := fun s => [lo (2 ^ k) s; hi (2 ^ k) s]).
      assert (E : forall l, concat (map (fun s => lo (2 ^ k) s ++ hi (2 ^ k) s) l)
                            = concat (flat_map f l)).
      { induction l; simpl; auto. rewrite IHl. now rewrite <- app_assoc. }
      assert (El : forall l, length (flat_map f l) = 2 * length l).
      { induction l; simpl in *; auto. rewrite IHl. lia. }
      rewrite E. replace (length segs * 2 ^ S k) with (length (flat_map f segs) * 2 ^ k)
        by (rewrite El; simpl; lia).
      rewrite IHk.
      + f_equal. f_equal. clear. induction segs; simpl; auto. rewrite IHsegs.
        now rewrite <- app_assoc.
      + intros s Hin. apply in_flat_map in Hin as (x & _ & [<-|[<-|[]]]);
          [apply lo_length|apply hi_length].
  Qed.

  Lemma inverse_segs k segs post :
    (forall s, In s segs -> length s = 2 ^ k) ->
    for_from 1 k (fft_inv_level (length segs * 2 ^ k)) (concat segs ++ post)
    = Ok (concat (map (idif k) segs) ++ post).
  Proof.
    revert segs; induction k; intros segs Hs.
    - simpl. rewrite (map_ext _ id) by reflexivity. now rewrite map_id.
    - rewrite for_from_snoc.
      set (f := fun s : list C => [firstn (2 ^ k) s; skipn (2 ^ k) s]).
      assert (E : forall l, concat l = concat (flat_map f l)).
      { induction l; simpl; auto. rewrite IHl at 1. now rewrite app_assoc, firstn_skipn. }
      assert (El : forall l, length (flat_map f l) = 2 * length l).
      { induction l; simpl in *; auto. rewrite IHl. lia. }
      rewrite (E segs). replace (length segs * 2 ^ S k) with (length (flat_map f segs) * 2 ^ k)
        at 1 by (rewrite El; simpl; lia).
      rewrite IHk.
      + cbn [bind].
        set (g := fun s => idif k (firstn (2 ^ k) s) ++ idif k (skipn (2 ^ k) s)).
        replace (concat (map (idif k) (flat_map f segs))) with (concat (map g segs)).
        2: { unfold g, f. clear. induction segs; simpl; auto. rewrite IHsegs.
             now rewrite <- app_assoc. }
        replace (length segs) with (length (map g segs)) by apply map_length.
        assert (Hlen : forall s, In s segs -> length (firstn (2 ^ k) s) = 2 ^ k
                        /\ length (skipn (2 ^ k) s) = 2 ^ k).
        { intros s Hin. apply Hs in Hin. rewrite firstn_length, skipn_length.
          simpl in Hin. lia. }
        cbn [Nat.add]. rewrite fft_inv_level_segs.
        * do 2 f_equal. f_equal. rewrite map_map. apply map_ext_in. intros s Hin.
          destruct (Hlen s Hin). unfold g. cbn [idif].
          rewrite firstn_app, skipn_app, !idif_length by auto.
          rewrite Nat.sub_diag, firstn_O, skipn_O, app_nil_r.
          rewrite firstn_all2, skipn_all2 by (rewrite idif_length; auto).
          reflexivity.
        * intros s Hin. apply in_map_iff in Hin as (x & <- & Hin). destruct (Hlen x Hin).
          unfold g. rewrite app_length, !idif_length by auto. simpl; lia.
      + intros s Hin. apply in_flat_map in Hin as (x & Hin & [<-|[<-|[]]]);
          apply Hs in Hin; rewrite ?firstn_length, ?skipn_length; simpl in Hin; lia.
  Qed.

  Theorem ForwardFFTUnordered_dif k x post :
    length x = 2 ^ k -> ForwardFFTUnordered (2 ^ k) (x ++ post) = Ok (dif k x ++ post).
  Proof.
    intros H. unfold ForwardFFTUnordered. rewrite assert_true.
    - cbn [bind]. rewrite Nat.log2_pow2 by lia.
      pose proof (forward_segs k [x] post) as E. simpl concat in E. rewrite !app_nil_r in E.
      rewrite <- E; [|intros s [<-|[]]; auto]. cbn [length]. now rewrite Nat.mul_1_l.
    - apply negb_true_iff, Nat.eqb_neq, Nat.pow_nonzero; lia.
  Qed.

  Theorem InverseFFTUnordered_idif k x post :
    length x = 2 ^ k -> InverseFFTUnordered (2 ^ k) (x ++ post) = Ok (idif k x ++ post).
  Proof.
    intros H. unfold InverseFFTUnordered. rewrite assert_true.
    - cbn [bind]. rewrite Nat.log2_pow2 by lia.
      pose proof (inverse_segs k [x] post) as E. simpl concat in E. rewrite !app_nil_r in E.
      rewrite <- E; [|intros s [<-|[]]; auto]. cbn [length]. now rewrite Nat.mul_1_l.
    - apply negb_true_iff, Nat.eqb_neq, Nat.pow_nonzero; lia.
  Qed.
End Butterfly.
