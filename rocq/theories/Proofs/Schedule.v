(** * The streaming decomposition schedules *)
From Coq Require Import Ring.
From Verif.Model Require Import Base Arith Juce FFT FFTDecomposition DecompositionSchedule.
From Verif.Spec Require Import Transform.
From Verif.Proofs Require Import Lists ComplexAlg Butterfly FFTProof Decomp.

Section Schedule.
  Context {A : arith}.
  Notation C := (cplx A).
  Variable b : nat.                 (* the block size is 2^b *)
  Notation B := (2 ^ b).

  (** the effect of one phase on one segment of [2^(s+b+1)] points with [2^s] phases left *)
  Fixpoint fs (n s p : nat) (d : list C) : list C :=
    match n with
    | 0 => d
    | S n' =>
        let h := 2 ^ (s + b) in
        let d' := fwd_seg h (p * B) B d in
        match s with
        | 0 => d'
        | S s' => if p <? 2 ^ s' then d'
                  else fs n' s' (p - 2 ^ s') (firstn h d') ++ fs n' s' (p - 2 ^ s') (skipn h d')
        end
    end.

  Fixpoint is_ (n s p : nat) (d : list C) : list C :=
    match n with
    | 0 => d
    | S n' =>
        let h := 2 ^ (s + b) in
        let d' := match s with
                  | 0 => d
                  | S s' => if p <? 2 ^ s'
                            then is_ n' s' p (firstn h d) ++ is_ n' s' p (skipn h d) else d
                  end in
        inv_seg h (p * B) B d'
    end.

  Lemma half_pow s : 2 ^ (S s + b) = 2 * 2 ^ (s + b).
  Proof. reflexivity. Qed.
  Lemma firstn_half (d : list C) h : length d = 2 * h -> length (firstn h d) = h.
  Proof. intros. rewrite firstn_length. lia. Qed.
  Lemma skipn_half (d : list C) h : length d = 2 * h -> length (skipn h d) = h.
  Proof. intros. rewrite skipn_length. lia. Qed.

  Lemma fs_length n : forall s p d,
    length d = 2 * 2 ^ (s + b) -> length (fs n s p d) = 2 * 2 ^ (s + b).
  Proof.
    induction n; intros s p d Hd; auto. cbn [fs]. destruct s as [|s'].
    - apply bf_seg_length.
    - set (d' := fwd_seg _ _ _ _). assert (length d' = 2 * 2 ^ (S s' + b)) by apply bf_seg_length.
      destruct (p <? 2 ^ s'); auto. rewrite app_length, !IHn.
      + rewrite half_pow. lia.
      + rewrite skipn_half by auto. apply half_pow.
      + rewrite firstn_half by auto. apply half_pow.
  Qed.

  Lemma is_length n : forall s p d,
    length d = 2 * 2 ^ (s + b) -> length (is_ n s p d) = 2 * 2 ^ (s + b).
  Proof. destruct n; intros s p d Hd; auto. apply bf_seg_length. Qed.

  Definition split2 (h : nat) (l : list (list C)) : list (list C) :=
    flat_map (fun s => [firstn h s; skipn h s]) l.
  Lemma split2_concat h l : concat (split2 h l) = concat l.
  Proof.
    induction l; simpl; auto. rewrite IHl. now rewrite app_assoc, firstn_skipn.
  Qed.
  Lemma split2_length h l : length (split2 h l) = 2 * length l.
  Proof. unfold split2. induction l; simpl in *; auto. rewrite IHl. lia. Qed.
  Lemma split2_in h l x :
    (forall s, In s l -> length s = 2 * h) -> In x (split2 h l) -> length x = h.
  Proof.
    intros H Hin. apply in_flat_map in Hin as (y & Hy & [<-|[<-|[]]]); apply H in Hy;
      rewrite ?firstn_length, ?skipn_length; lia.
  Qed.
  Lemma split2_map (f : list C -> list C) h l :
    concat (map f (split2 h l)) = concat (map (fun s => f (firstn h s) ++ f (skipn h s)) l).
  Proof. induction l; simpl; auto. rewrite IHl. now rewrite <- app_assoc. Qed.

  Lemma pow_mod_small l0 s p :
    p < 2 ^ s -> (2 ^ (l0 + s) - 2 ^ s + p) mod 2 ^ s = p.
  Proof.
    intros Hp. rewrite Nat.pow_add_r.
    assert (0 < 2 ^ l0) by apply pow2_pos.
    replace (2 ^ l0 * 2 ^ s - 2 ^ s + p) with (p + (2 ^ l0 - 1) * 2 ^ s) by nia.
    rewrite Nat.mod_add by (apply Nat.pow_nonzero; lia). now apply Nat.mod_small.
  Qed.

  Notation fwd_body total nb P := (fun (level : nat) (data : list C) =>
      let num_segments := 2 ^ level in
      let num_steps := nb / num_segments in
      if nb - num_steps <=? P then
        relative_phase <- umod P num_steps ;;
        SegmentedForwardDecompositionRadix2 total num_segments num_steps relative_phase data
      else Ok data).

  Lemma fwd_sched_gen n : forall l0 s p segs,
    n <= s -> p < 2 ^ s -> length segs = 2 ^ l0 ->
    (forall x, In x segs -> length x = 2 * 2 ^ (s + b)) ->
    for_from l0 n (fwd_body (2 ^ (l0 + S (s + b))) (2 ^ (l0 + s)) (2 ^ (l0 + s) - 2 ^ s + p))
             (concat segs)
    = Ok (concat (map (fs n s p) segs)).
  Proof.
    induction n; intros l0 s p segs Hn Hp Hl Hs.
    - cbn [for_from fs]. now rewrite map_id.
    - cbn [for_from fs]. destruct s as [|s']; [lia|].
      set (s := S s') in *.
      rewrite pow2_div by lia. replace (l0 + s - l0) with s by lia.
      destruct (Nat.leb_spec (2 ^ (l0 + s) - 2 ^ s) (2 ^ (l0 + s) - 2 ^ s + p)); [|lia].
      unfold umod at 1. destruct (Nat.eqb_spec (2 ^ s) 0) as [E|_]; [pose proof (pow2_pos s); lia|].
      cbn [bind]. rewrite pow_mod_small by auto.
      rewrite seg_fwd_call by (auto; lia). cbn [bind].
      replace (s + b - s) with b by lia.
      set (g := fwd_seg (2 ^ (s + b)) (p * B) B).
      assert (Hg : forall x, In x (map g segs) -> length x = 2 * 2 ^ (s + b)).
      { intros x Hx. apply in_map_iff in Hx as (y & <- & _). apply bf_seg_length. }
      destruct (Nat.ltb_spec p (2 ^ s')).
      + (* no deeper level is active *)
        change (S l0) with (1 + l0).
        assert (G : forall m d, for_from (1 + l0) m
             (fwd_body (2 ^ (l0 + S (s + b))) (2 ^ (l0 + s)) (2 ^ (l0 + s) - 2 ^ s + p)) d = Ok d).
        { intros m d.
          rewrite (for_from_ext _ _ _ (fun _ d => Ok d)).
          - generalize (1 + l0). clear. induction m; intros; auto. cbn [for_from bind]. apply IHm.
          - intros i e Hi. cbv zeta.
            destruct (Nat.leb_spec (2 ^ (l0 + s) - 2 ^ (l0 + s) / 2 ^ i) (2 ^ (l0 + s) - 2 ^ s + p)); auto.
            exfalso.
            assert (2 ^ (l0 + s) / 2 ^ i <= 2 ^ s').
            { apply Nat.le_trans with (2 ^ (l0 + s) / 2 ^ (S l0)).
              - apply Nat.div_le_compat_l. split; [apply pow2_pos|]. apply Nat.pow_le_mono_r; lia.
              - rewrite pow2_div by lia. apply Nat.pow_le_mono_r; lia. }
            assert (2 ^ s = 2 * 2 ^ s') by reflexivity.
            assert (2 ^ s <= 2 ^ (l0 + s)) by (apply Nat.pow_le_mono_r; lia).
            lia. }
        exact (G n (concat (map g segs))).
      + rewrite <- (split2_concat (2 ^ (s + b))).
        assert (E1 : 2 ^ s = 2 * 2 ^ s') by reflexivity.
        assert (E2 : 2 ^ s <= 2 ^ (l0 + s)) by (apply Nat.pow_le_mono_r; lia).
        replace (2 ^ (l0 + s) - 2 ^ s + p) with (2 ^ (S l0 + s') - 2 ^ s' + (p - 2 ^ s')).
        2: { replace (S l0 + s') with (l0 + s) by (unfold s; lia). lia. }
        replace (l0 + S (s + b)) with (S l0 + S (s' + b)) by (unfold s; lia).
        replace (l0 + s) with (S l0 + s') by (unfold s; lia).
        rewrite IHn.
        * rewrite split2_map, map_map. reflexivity.
        * lia.
        * lia.
        * rewrite split2_length, map_length, Hl. reflexivity.
        * intros x Hx. apply split2_in in Hx; auto.
  Qed.

  Theorem forward_schedule_fs n s p d :
    n <= s -> p < 2 ^ s -> length d = 2 * 2 ^ (s + b) ->
    ForwardDecompositionSchedule n (2 * 2 ^ (s + b)) (2 ^ s) p d = Ok (fs n s p d).
  Proof.
    intros Hn Hp Hd. unfold ForwardDecompositionSchedule, for_n.
    pose proof (fwd_sched_gen n 0 s p [d]) as E. cbn [concat map] in E. rewrite !app_nil_r in E.
    cbn [Nat.add] in E. rewrite Nat.sub_diag in E.
    change (2 ^ S (s + b)) with (2 * 2 ^ (s + b)) in E. apply E; auto.
    intros x [<-|[]]; auto.
  Qed.

  Notation inv_body total nb p l0 := (fun (level1 : nat) (data : list C) =>
      let level := l0 + (level1 - 1) in
      let num_segments := 2 ^ level in
      let num_steps := nb / num_segments in
      if p <? num_steps then
        SegmentedInverseDecompositionRadix2 total num_segments num_steps p data
      else Ok data).

  Lemma down_last {St} (body : nat -> St -> res St) n s :
    for_down (S n) body s = bind (for_down n (fun i => body (S i)) s) (body 1).
  Proof.
    revert s. induction n; intros s.
    - simpl. destruct (body 1 s); auto.
    - cbn [for_down] in *. destruct (body (S (S n)) s); cbn [bind]; auto.
  Qed.
  Lemma down_ext {St} n (b1 b2 : nat -> St -> res St) s :
    (forall i s, 1 <= i <= n -> b1 i s = b2 i s) -> for_down n b1 s = for_down n b2 s.
  Proof.
    revert s. induction n; intros s H; auto. cbn [for_down]. rewrite H by lia.
    destruct (b2 (S n) s); cbn [bind]; auto. apply IHn. intros; apply H; lia.
  Qed.

  Lemma inv_sched_gen n : forall l0 s p segs,
    n <= s -> p < 2 ^ s -> length segs = 2 ^ l0 ->
    (forall x, In x segs -> length x = 2 * 2 ^ (s + b)) ->
    for_down n (inv_body (2 ^ (l0 + S (s + b))) (2 ^ (l0 + s)) p l0) (concat segs)
    = Ok (concat (map (is_ n s p) segs)).
  Proof.
    induction n; intros l0 s p segs Hn Hp Hl Hs.
    - cbn [for_down is_]. now rewrite map_id.
    - cbn [is_]. destruct s as [|s']; [lia|]. set (s := S s') in *.
      rewrite down_last.
      set (h := 2 ^ (s + b)).
      set (g := fun d => if p <? 2 ^ s'
                         then is_ n s' p (firstn h d) ++ is_ n s' p (skipn h d) else d).
      assert (E : for_down n (fun i => inv_body (2 ^ (l0 + S (s + b))) (2 ^ (l0 + s)) p l0 (S i))
                           (concat segs) = Ok (concat (map g segs))).
      { unfold g. destruct (Nat.ltb_spec p (2 ^ s')) as [Hlt|Hge].
        - rewrite (down_ext n _ (inv_body (2 ^ (S l0 + S (s' + b))) (2 ^ (S l0 + s')) p (S l0))).
          + rewrite <- (split2_concat h). rewrite IHn.
            * rewrite split2_map. reflexivity.
            * lia.
            * auto.
            * rewrite split2_length, Hl. reflexivity.
            * intros x Hx. apply split2_in in Hx; auto.
          + intros i e Hi. cbv zeta.
            replace (l0 + (S i - 1)) with (S l0 + (i - 1)) by lia.
            replace (l0 + S (s + b)) with (S l0 + S (s' + b)) by (unfold s; lia).
            replace (l0 + s) with (S l0 + s') by (unfold s; lia). reflexivity.
        - rewrite map_id.
          rewrite (down_ext n _ (fun _ d => Ok d)).
          + clear. induction n; auto.
          + intros i e Hi. cbv zeta.
            destruct (Nat.ltb_spec p (2 ^ (l0 + s) / 2 ^ (l0 + (S i - 1)))); auto.
            exfalso.
            assert (2 ^ (l0 + s) / 2 ^ (l0 + (S i - 1)) <= 2 ^ s').
            { apply Nat.le_trans with (2 ^ (l0 + s) / 2 ^ (S l0)).
              - apply Nat.div_le_compat_l. split; [apply pow2_pos|]. apply Nat.pow_le_mono_r; lia.
              - rewrite pow2_div by lia. apply Nat.pow_le_mono_r; lia. }
            lia. }
      etransitivity; [eapply (f_equal (fun r => bind r _)); exact E|]. cbn [bind].
      assert (Hg : forall x, In x (map g segs) -> length x = 2 * h).
      { intros x Hx. apply in_map_iff in Hx as (y & <- & Hy). apply Hs in Hy. unfold g.
        destruct (p <? 2 ^ s'); auto. fold h in Hy.
        rewrite app_length, !is_length; rewrite ?firstn_half, ?skipn_half by auto.
        - unfold h, s. rewrite half_pow. lia.
        - unfold h, s. now rewrite half_pow.
        - unfold h, s. now rewrite half_pow. }
      replace (l0 + (1 - 1)) with l0 by lia.
      rewrite pow2_div by lia. replace (l0 + s - l0) with s by lia.
      destruct (Nat.ltb_spec p (2 ^ s)); [|lia].
      rewrite seg_inv_call; auto; try lia.
      + replace (s + b - s) with b by lia. rewrite map_map. reflexivity.
      + now rewrite map_length.
  Qed.

  Theorem inverse_schedule_is n s p d :
    n <= s -> p < 2 ^ s -> length d = 2 * 2 ^ (s + b) ->
    InverseDecompositionSchedule n (2 * 2 ^ (s + b)) (2 ^ s) p d = Ok (is_ n s p d).
  Proof.
    intros Hn Hp Hd. unfold InverseDecompositionSchedule.
    pose proof (inv_sched_gen n 0 s p [d]) as E. cbn [concat map] in E. rewrite !app_nil_r in E.
    cbn [Nat.add] in E.
    change (2 ^ S (s + b)) with (2 * 2 ^ (s + b)) in E. apply E; auto.
    intros x [<-|[]]; auto.
  Qed.

  (** ** streaming forward: invariant *)
  (** "the points of both halves before offset m" *)
  Definition early (h m q : nat) : Prop := q < m \/ (h <= q < h + m).

  (** after [p] phases, the segment [d] relates to the complete segment [X] *)
  Fixpoint J (n s p : nat) (d X : list C) : Prop :=
    let h := 2 ^ (s + b) in
    match n with
    | 0 => forall q, early h (p * B) q -> nth q d c0 = nth q X c0
    | S n' =>
        match s with
        | 0 => p = 0 \/ d = fwd_seg h 0 h X
        | S s' =>
            let h' := 2 ^ (s' + b) in
            if p <=? 2 ^ s' then
              forall q, q < p * B -> nth q d c0 = nth q (lo h X) c0
                                  /\ nth (q + h) d c0 = nth q (hi h X) c0
            else
              let p' := p - 2 ^ s' in
              J n' s' p' (firstn h d) (lo h X) /\ J n' s' p' (skipn h d) (hi h X) /\
              (forall q, p' * B <= q < h' -> nth q d c0 = nth q (lo h X) c0
                                  /\ nth (q + h) d c0 = nth q (hi h X) c0)
        end
    end.

  Lemma J_0 n s d X : J n s 0 d X.
  Proof.
    destruct n; cbn [J].
    - unfold early. intros; lia.
    - destruct s; auto. cbn [Nat.leb]. intros; lia.
  Qed.

  Lemma pB s p : p <= 2 ^ s -> p * B <= 2 ^ (s + b).
  Proof. intros. rewrite Nat.pow_add_r. nia. Qed.

  Lemma fwd_seg_nth h a n (d : list C) q :
    q < 2 * h ->
    nth q (fwd_seg h a n d) c0 =
    if q <? h
    then if (a <=? q) && (q <? a + n) then cadd (nth q d c0) (nth (q + h) d c0) else nth q d c0
    else if (a <=? q - h) && (q - h <? a + n)
         then cmul (csub (nth (q - h) d c0) (nth q d c0)) (spow (cis_neg (2 * h)) (q - h))
         else nth q d c0.
  Proof. intros. unfold fwd_seg, bf_seg. now rewrite tab_nth. Qed.

  Lemma inv_seg_nth h a n (d : list C) q :
    q < 2 * h ->
    nth q (inv_seg h a n d) c0 =
    if q <? h
    then if (a <=? q) && (q <? a + n)
         then cscale (cadd (nth q d c0) (cmul (nth (q + h) d c0) (spow (cis (2 * h)) q))) shalf
         else nth q d c0
    else if (a <=? q - h) && (q - h <? a + n)
         then cscale (csub (nth (q - h) d c0) (cmul (nth q d c0) (spow (cis (2 * h)) (q - h)))) shalf
         else nth q d c0.
  Proof. intros. unfold inv_seg, bf_seg. now rewrite tab_nth. Qed.

  Lemma nth_firstn_lt {T} (l : list T) n i d : i < n -> nth i (firstn n l) d = nth i l d.
  Proof. intros. rewrite nth_firstn'. apply Nat.ltb_lt in H. now rewrite H. Qed.

  (** J looks only at early points *)
  Lemma J_frame n : forall s p d e X,
    n <= s -> p <= 2 ^ s ->
    (forall q, early (2 ^ (s + b)) (p * B) q -> nth q d c0 = nth q e c0) ->
    J n s p d X -> J n s p e X.
  Proof.
    induction n; intros s p d e X Hn Hp Hde HJ; cbn [J] in *.
    - intros q Hq. rewrite <- Hde by auto. auto.
    - destruct s as [|s']; [lia|].
      assert (Eh : 2 ^ (S s' + b) = 2 * 2 ^ (s' + b)) by reflexivity.
      set (h := 2 ^ (S s' + b)) in *. set (h' := 2 ^ (s' + b)) in *.
      destruct (Nat.leb_spec p (2 ^ s')) as [Hle|Hgt].
      + pose proof (pB s' p Hle) as Hle2. fold h' in Hle2.
        intros q Hq. rewrite <- !Hde by (unfold early; lia). auto.
      + assert (EpB : p * B = h' + (p - 2 ^ s') * B).
        { unfold h'. rewrite Nat.pow_add_r. nia. }
        assert (Hp' : (p - 2 ^ s') * B <= h') by (apply pB; simpl in Hp; lia).
        destruct HJ as (J1 & J2 & J3). split; [|split].
        * eapply IHn; [lia|simpl in Hp; lia| |exact J1].
          intros q Hq. fold h' in Hq. unfold early in Hq.
          rewrite !nth_firstn_lt by lia. apply Hde. unfold early. lia.
        * eapply IHn; [lia|simpl in Hp; lia| |exact J2].
          intros q Hq. fold h' in Hq. unfold early in Hq.
          rewrite !nth_skipn'. apply Hde. unfold early. lia.
        * intros q Hq. rewrite <- !Hde by (unfold early; lia). auto.
  Qed.

  (** a phase leaves the later points alone *)
  Lemma fs_frame n : forall s p d q,
    n <= s -> p < 2 ^ s -> length d = 2 * 2 ^ (s + b) -> q < 2 * 2 ^ (s + b) ->
    ~ early (2 ^ (s + b)) ((p + 1) * B) q -> nth q (fs n s p d) c0 = nth q d c0.
  Proof.
    induction n; intros s p d q Hn Hp Hd Hq Hq'; auto. cbn [fs].
    destruct s as [|s']; [lia|]. unfold early in Hq'.
    assert (Eh : 2 ^ (S s' + b) = 2 * 2 ^ (s' + b)) by reflexivity.
    assert (Hpb : (p + 1) * B <= 2 ^ (S s' + b)) by (apply pB; lia).
    set (h := 2 ^ (S s' + b)) in *. set (h' := 2 ^ (s' + b)) in *.
    set (d' := fwd_seg _ _ _ _).
    assert (Hd' : length d' = 2 * h) by apply bf_seg_length.
    assert (E : nth q d' c0 = nth q d c0).
    { unfold d'. rewrite fwd_seg_nth by auto. bcase; auto; lia. }
    destruct (Nat.ltb_spec p (2 ^ s')); auto.
    assert (EpB : (p + 1) * B = h' + (p - 2 ^ s' + 1) * B).
    { unfold h'. rewrite Nat.pow_add_r. nia. }
    rewrite nth_app', fs_length by (rewrite firstn_half; auto). fold h'. rewrite <- Eh.
    simpl in Hp.
    destruct (Nat.ltb_spec q h).
    - rewrite IHn; try lia.
      + rewrite nth_firstn_lt; auto.
      + rewrite firstn_half; auto.
      + fold h'. unfold early. lia.
    - rewrite IHn; try lia.
      + rewrite nth_skipn'. replace (h + (q - h)) with q by lia. auto.
      + rewrite skipn_half; auto.
      + fold h'. unfold early. lia.
  Qed.

  Lemma fs_step n : forall s p d X,
    n <= s -> p < 2 ^ s -> length d = 2 * 2 ^ (s + b) -> length X = 2 * 2 ^ (s + b) ->
    J n s p d X ->
    (forall q, p * B <= q < (p + 1) * B ->
       nth q d c0 = nth q X c0 /\ nth (q + 2 ^ (s + b)) d c0 = nth (q + 2 ^ (s + b)) X c0) ->
    J n s (p + 1) (fs n s p d) X.
  Proof.
    induction n; intros s p d X Hn Hp Hd HX HJ Hnew.
    - cbn [fs]. cbn [J] in *. intros q Hq. unfold early in *.
      assert (Hpb : (p + 1) * B <= 2 ^ (s + b)) by (apply pB; lia).
      destruct (le_lt_dec (p * B) q) as [H1|H1].
      + destruct (le_lt_dec ((p + 1) * B) q) as [H2|H2].
        * destruct (le_lt_dec (2 ^ (s + b) + p * B) q) as [H3|H3].
          -- destruct (Hnew (q - 2 ^ (s + b))) as [_ E]; [lia|].
             now replace (q - 2 ^ (s + b) + 2 ^ (s + b)) with q in E by lia.
          -- apply HJ. lia.
        * now apply Hnew.
      + apply HJ. lia.
    - destruct s as [|s']; [lia|]. cbn [fs].
      assert (Eh : 2 ^ (S s' + b) = 2 * 2 ^ (s' + b)) by reflexivity.
      assert (Hpb : (p + 1) * B <= 2 ^ (S s' + b)) by (apply pB; lia).
      cbn [J] in *.
      set (h := 2 ^ (S s' + b)) in *. set (h' := 2 ^ (s' + b)) in *.
      set (d' := fwd_seg _ _ _ _).
      assert (Hd' : length d' = 2 * h) by apply bf_seg_length.
      assert (Hblk : forall q, p * B <= q < (p + 1) * B ->
                nth q d' c0 = nth q (lo h X) c0 /\ nth (q + h) d' c0 = nth q (hi h X) c0).
      { intros q Hq. destruct (Hnew q Hq) as [E1 E2]. unfold d', lo, hi.
        rewrite !fwd_seg_nth, !tab_nth by lia. split.
        - bcase; try lia. now rewrite E1, E2.
        - bcase; try lia. replace (q + h - h) with q by lia. now rewrite E1, E2. }
      assert (Hold : forall q, q < h -> ~ (p * B <= q < (p + 1) * B) ->
                nth q d' c0 = nth q d c0 /\ nth (q + h) d' c0 = nth (q + h) d c0).
      { intros q Hq Hq'. unfold d'. rewrite !fwd_seg_nth by lia. split; bcase; auto; lia. }
      destruct (Nat.ltb_spec p (2 ^ s')) as [Hlt|Hge].
      + destruct (Nat.leb_spec (p + 1) (2 ^ s')); [|lia].
        destruct (Nat.leb_spec p (2 ^ s')); [|lia].
        intros q Hq. destruct (le_lt_dec (p * B) q).
        * apply Hblk. lia.
        * destruct (Hold q) as [-> ->]; try lia. now apply HJ.
      + destruct (Nat.leb_spec (p + 1) (2 ^ s')); [lia|].
        replace (p + 1 - 2 ^ s') with (p - 2 ^ s' + 1) by lia.
        set (p' := p - 2 ^ s') in *.
        assert (EpB : p * B = h' + p' * B) by (unfold h', p'; rewrite Nat.pow_add_r; nia).
        assert (Hp' : (p' + 1) * B <= h') by (apply pB; unfold p'; simpl in Hp; lia).
        (* what we know before the phase, in both forms of J *)
        assert (HJ' : J n s' p' (firstn h d) (lo h X) /\ J n s' p' (skipn h d) (hi h X) /\
                (forall q, p' * B <= q < h' -> nth q d c0 = nth q (lo h X) c0
                                  /\ nth (q + h) d c0 = nth q (hi h X) c0)).
        { destruct (Nat.leb_spec p (2 ^ s')); [|exact HJ].
          assert (p = 2 ^ s') by lia. assert (p' = 0) as E0 by lia. rewrite E0. repeat split; try apply J_0;
            apply HJ; lia. }
        clear HJ. destruct HJ' as (J1 & J2 & J3).
        assert (L1 : length (firstn h d') = h) by now apply firstn_half.
        assert (L2 : length (skipn h d') = h) by now apply skipn_half.
        assert (F1 : J n s' p' (firstn h d') (lo h X)).
        { eapply J_frame; [lia| | |exact J1]; [unfold p'; simpl in Hp; lia|].
          intros q Hq. fold h' in Hq. unfold early in Hq. rewrite !nth_firstn_lt by lia.
          symmetry. apply Hold; lia. }
        assert (F2 : J n s' p' (skipn h d') (hi h X)).
        { eapply J_frame; [lia| | |exact J2]; [unfold p'; simpl in Hp; lia|].
          intros q Hq. fold h' in Hq. unfold early in Hq. rewrite !nth_skipn'.
          rewrite !(Nat.add_comm h). symmetry. apply Hold; lia. }
        assert (p' < 2 ^ s') by (unfold p'; simpl in Hp; lia).
        split; [|split].
        * rewrite firstn_app, fs_length by (rewrite L1; auto).
          fold h'. rewrite <- Eh, Nat.sub_diag, firstn_O, app_nil_r.
          rewrite firstn_all2 by (rewrite fs_length by (rewrite L1; auto); fold h'; lia).
          apply IHn; auto; try lia.
          -- rewrite lo_length. auto.
          -- fold h'. intros q Hq. rewrite !nth_firstn_lt by lia. split.
             ++ destruct (Hold q) as [-> _]; try lia. apply J3. lia.
             ++ apply Hblk. lia.
        * rewrite skipn_app, fs_length by (rewrite L1; auto).
          fold h'. rewrite <- Eh, Nat.sub_diag, skipn_O.
          rewrite skipn_all2 by (rewrite fs_length by (rewrite L1; auto); fold h'; lia).
          cbn [app]. apply IHn; auto; try lia.
          -- rewrite hi_length. auto.
          -- fold h'. intros q Hq. rewrite !nth_skipn'. split.
             ++ rewrite (Nat.add_comm h). destruct (Hold q) as [_ ->]; try lia. apply J3. lia.
             ++ rewrite (Nat.add_comm h). apply Hblk. lia.
        * intros q Hq.
          rewrite !nth_app', fs_length by (rewrite L1; auto). fold h'. rewrite <- Eh.
          destruct (Nat.ltb_spec q h); [|lia]. destruct (Nat.ltb_spec (q + h) h); [lia|].
          replace (q + h - h) with q by lia.
          rewrite !fs_frame; try lia; try (fold h'; unfold early; lia); try (now fold h'; lia).
          rewrite nth_firstn_lt, nth_skipn' by lia. rewrite (Nat.add_comm h).
          destruct (Hold q) as [-> ->]; try lia. apply J3. lia.
  Qed.

  Lemma J_final n : forall s d X,
    n <= s -> length d = 2 * 2 ^ (s + b) -> length X = 2 * 2 ^ (s + b) ->
    J n s (2 ^ s) d X -> d = decomp n (S (s + b)) X.
  Proof.
    induction n; intros s d X Hn Hd HX HJ.
    - unfold decomp. cbn [dsegs concat]. rewrite app_nil_r.
      apply list_ext with (d := c0); [lia|]. intros q Hq. apply HJ. unfold early.
      rewrite Hd in Hq. rewrite <- Nat.pow_add_r. lia.
    - destruct s as [|s']; [lia|]. cbn [J] in HJ.
      assert (Eh : 2 ^ (S s' + b) = 2 * 2 ^ (s' + b)) by reflexivity.
      set (h := 2 ^ (S s' + b)) in *.
      destruct (Nat.leb_spec (2 ^ S s') (2 ^ s')) as [H|_].
      { pose proof (pow2_pos s'). simpl in H. lia. }
      destruct HJ as (J1 & J2 & _).
      replace (2 ^ S s' - 2 ^ s') with (2 ^ s') in J1, J2 by (simpl; lia).
      unfold decomp. cbn [dsegs]. rewrite concat_app.
      fold (decomp n (S s' + b) (lo (2 ^ (S s' + b)) X)).
      fold (decomp n (S s' + b) (hi (2 ^ (S s' + b)) X)).
      rewrite <- (firstn_skipn h d). f_equal.
      + apply IHn; auto; try lia.
        * rewrite firstn_half; auto.
        * rewrite lo_length. auto.
      + apply IHn; auto; try lia.
        * rewrite skipn_half; auto.
        * rewrite hi_length. auto.
  Qed.

  (** ** the inverse schedule: closed form of the state after p phases *)
  Fixpoint ist (n s p : nat) (y : list C) : list C :=
    match n, s with
    | S n', S s' =>
        let h := 2 ^ (S s' + b) in
        let p' := Nat.min p (2 ^ s') in
        let ea := ist n' s' p' (firstn h y) in
        let eb := ist n' s' p' (skipn h y) in
        let Z := imerge (S n') (S (S s' + b)) y in
        tab (2 * h) (fun q => if q <? h
                              then if q <? p * B then nth q Z c0 else nth q ea c0
                              else if q - h <? p * B then nth q Z c0 else nth (q - h) eb c0)
    | _, _ => y
    end.

  Lemma ist_length n s p y : length y = 2 * 2 ^ (s + b) -> length (ist n s p y) = 2 * 2 ^ (s + b).
  Proof. destruct n, s; intros; auto. apply tab_length. Qed.

  Lemma ist_0 n : forall s y, n <= s -> length y = 2 * 2 ^ (s + b) -> ist n s 0 y = y.
  Proof.
    induction n; intros s y Hn Hy; auto. destruct s as [|s']; [lia|]. cbn [ist Nat.min].
    set (h := 2 ^ (S s' + b)) in *.
    assert (Eh : h = 2 * 2 ^ (s' + b)) by reflexivity.
    symmetry. apply list_tab with (d := c0); auto. intros q Hq.
    rewrite !IHn by (try lia; rewrite ?firstn_half, ?skipn_half; auto).
    bcase; try lia.
    - now rewrite nth_firstn_lt.
    - rewrite nth_skipn'. f_equal. lia.
  Qed.

  (** blocks before p are final *)
  Lemma ist_done n s p y q :
    n <= s -> length y = 2 * 2 ^ (s + b) -> p <= 2 ^ s -> early (2 ^ (s + b)) (p * B) q ->
    nth q (ist n s p y) c0 = nth q (imerge n (S (s + b)) y) c0.
  Proof.
    intros Hn Hy Hp Hq. unfold early in Hq. destruct n; [reflexivity|]. destruct s as [|s']; [lia|].
    cbn [ist]. pose proof (pB _ _ Hp).
    rewrite tab_nth by lia. bcase; try lia; auto.
  Qed.

  Lemma ist_final n s y :
    n <= s -> length y = 2 * 2 ^ (s + b) -> ist n s (2 ^ s) y = imerge n (S (s + b)) y.
  Proof.
    intros Hn Hy. apply list_ext with (d := c0).
    - rewrite ist_length, imerge_length; auto.
    - rewrite ist_length by auto. intros q Hq. apply ist_done; auto.
      unfold early. rewrite <- Nat.pow_add_r. lia.
  Qed.

  (** phase p neither reads nor writes the points before block p of the first half *)
  Lemma is_local n : forall s p d e,
    n <= s -> p < 2 ^ s -> length d = 2 * 2 ^ (s + b) -> length e = 2 * 2 ^ (s + b) ->
    (forall q, p * B <= q < 2 * 2 ^ (s + b) -> nth q d c0 = nth q e c0) ->
    forall q, p * B <= q < 2 * 2 ^ (s + b) -> nth q (is_ n s p d) c0 = nth q (is_ n s p e) c0.
  Proof.
    induction n; intros s p d e Hn Hp Hd He Hde q Hq; [now apply Hde|].
    destruct s as [|s']; [lia|]. cbn [is_].
    assert (Eh : 2 ^ (S s' + b) = 2 * 2 ^ (s' + b)) by reflexivity.
    assert (Hpb : (p + 1) * B <= 2 ^ (S s' + b)) by (apply pB; lia).
    set (h := 2 ^ (S s' + b)) in *.
    set (d' := if p <? 2 ^ s' then is_ n s' p (firstn h d) ++ _ else d).
    set (e' := if p <? 2 ^ s' then is_ n s' p (firstn h e) ++ _ else e).
    assert (G : forall q, p * B <= q < 2 * h -> nth q d' c0 = nth q e' c0).
    { clear q Hq. intros q Hq. unfold d', e'. destruct (Nat.ltb_spec p (2 ^ s')); [|now apply Hde].
      assert (skipn h d = skipn h e) as ->.
      { apply list_ext with (d := c0).
        - rewrite !skipn_half; auto.
        - rewrite skipn_half by auto. intros i Hi. rewrite !nth_skipn'. apply Hde. lia. }
      rewrite !nth_app', !is_length by (rewrite firstn_half; auto). rewrite <- Eh.
      destruct (Nat.ltb_spec q h); auto.
      apply IHn; try lia; rewrite ?firstn_half by auto; auto; try lia.
      intros i Hi. rewrite !nth_firstn_lt by lia. apply Hde. lia. }
    rewrite !inv_seg_nth by lia.
    bcase; rewrite ?G by lia; auto.
  Qed.

  Lemma is_untouched n : forall s p d q,
    n <= s -> p < 2 ^ s -> length d = 2 * 2 ^ (s + b) -> q < p * B ->
    nth q (is_ n s p d) c0 = nth q d c0.
  Proof.
    induction n; intros s p d q Hn Hp Hd Hq; auto.
    destruct s as [|s']; [lia|]. cbn [is_].
    assert (Eh : 2 ^ (S s' + b) = 2 * 2 ^ (s' + b)) by reflexivity.
    assert (Hpb : (p + 1) * B <= 2 ^ (S s' + b)) by (apply pB; lia).
    set (h := 2 ^ (S s' + b)) in *.
    rewrite inv_seg_nth by lia. bcase; try lia.
    - rewrite nth_app', is_length by (rewrite firstn_half; auto).
      destruct (Nat.ltb_spec q (2 * 2 ^ (s' + b))); [|lia].
      rewrite IHn; try lia; [now rewrite nth_firstn_lt|]. rewrite firstn_half; auto.
    - reflexivity.
  Qed.

  Lemma is_step n : forall s p y,
    n <= s -> p < 2 ^ s -> length y = 2 * 2 ^ (s + b) ->
    is_ n s p (ist n s p y) = ist n s (p + 1) y.
  Proof.
    induction n; intros s p y Hn Hp Hy; auto.
    destruct s as [|s']; [lia|]. cbn [is_].
    assert (Eh : 2 ^ (S s' + b) = 2 * 2 ^ (s' + b)) by reflexivity.
    assert (Hpb : (p + 1) * B <= 2 ^ (S s' + b)) by (apply pB; lia).
    set (h := 2 ^ (S s' + b)) in *. set (h' := 2 ^ (s' + b)) in *.
    set (st := ist (S n) (S s') p y).
    assert (Hst : length st = 2 * h) by now apply ist_length.
    set (ya := firstn h y). set (yb := skipn h y).
    assert (Lya : length ya = 2 * h') by (unfold ya; rewrite firstn_half; auto).
    assert (Lyb : length yb = 2 * h') by (unfold yb; rewrite skipn_half; auto).
    set (p2 := Nat.min (p + 1) (2 ^ s')).
    (* after the inner levels *)
    set (d' := if p <? 2 ^ s' then _ else st).
    set (Z := imerge (S n) (S (S s' + b)) y).
    assert (HZ : Z = merge h (imerge n (S s' + b) ya) (imerge n (S s' + b) yb)) by reflexivity.
    assert (st_lo : forall q, q < h ->
              nth q st c0 = if q <? p * B then nth q Z c0
                            else nth q (ist n s' (Nat.min p (2 ^ s')) ya) c0).
    { intros q Hq. unfold st. cbn [ist]. fold h. rewrite tab_nth by lia. bcase; try lia; auto. }
    assert (st_hi : forall q, q < h ->
              nth (h + q) st c0 = if q <? p * B then nth (h + q) Z c0
                            else nth q (ist n s' (Nat.min p (2 ^ s')) yb) c0).
    { intros q Hq. unfold st. cbn [ist]. fold h. rewrite tab_nth by lia.
      replace (h + q - h) with q by lia. bcase; try lia; auto. }
    assert (D : forall q, q < h ->
       nth q d' c0 = (if q <? p * B then nth q Z c0 else nth q (ist n s' p2 ya) c0) /\
       nth (h + q) d' c0 = (if q <? p * B then nth (h + q) Z c0 else nth q (ist n s' p2 yb) c0)).
    { intros q Hq. unfold d', p2. destruct (Nat.ltb_spec p (2 ^ s')) as [Hlt|Hge].
      - rewrite (Nat.min_l (p + 1)) by lia. rewrite (Nat.min_l p) in st_lo, st_hi by lia.
        assert (La : length (firstn h st) = 2 * h') by (rewrite firstn_half; auto).
        assert (Lb : length (skipn h st) = 2 * h') by (rewrite skipn_half; auto).
        rewrite !nth_app', !is_length by auto. fold h'. rewrite <- Eh.
        destruct (Nat.ltb_spec q h); [|lia]. destruct (Nat.ltb_spec (h + q) h); [lia|].
        replace (h + q - h) with q by lia.
        destruct (Nat.ltb_spec q (p * B)) as [Hq2|Hq2].
        + split.
          * rewrite is_untouched by (auto; lia). rewrite nth_firstn_lt, st_lo by lia.
            apply Nat.ltb_lt in Hq2. now rewrite Hq2.
          * rewrite is_untouched by (auto; lia). rewrite nth_skipn', st_hi by lia.
            apply Nat.ltb_lt in Hq2. now rewrite Hq2.
        + split.
          * rewrite (is_local n s' p _ (ist n s' p ya)); auto; try (fold h'; lia).
            -- now rewrite IHn by (auto; lia).
            -- now apply ist_length.
            -- fold h'. intros i Hi. rewrite nth_firstn_lt, st_lo by lia. bcase; try lia; auto.
          * rewrite (is_local n s' p _ (ist n s' p yb)); auto; try (fold h'; lia).
            -- now rewrite IHn by (auto; lia).
            -- now apply ist_length.
            -- fold h'. intros i Hi. rewrite nth_skipn', st_hi by lia. bcase; try lia; auto.
      - rewrite (Nat.min_r (p + 1)) by lia. rewrite (Nat.min_r p) in st_lo, st_hi by lia. auto. }
    assert (Hp2 : p2 <= 2 ^ s') by (unfold p2; lia).
    (* points of block p of the halves are final before the last level *)
    assert (Fa : forall q, q < h -> q < (p + 1) * B ->
       nth q (ist n s' p2 ya) c0 = nth q (imerge n (S (s' + b)) ya) c0 /\
       nth q (ist n s' p2 yb) c0 = nth q (imerge n (S (s' + b)) yb) c0).
    { intros q Hq Hq2.
      assert (early h' (p2 * B) q).
      { unfold early, p2. destruct (Nat.min_spec (p + 1) (2 ^ s')) as [[_ ->]|[_ ->]]; [lia|].
        rewrite <- Nat.pow_add_r. fold h'. lia. }
      split; apply ist_done; auto; lia. }
    change (S (s' + b)) with (S s' + b) in Fa.
    cbn [ist]. fold h ya yb Z p2. apply list_tab with (d := c0); [apply bf_seg_length|].
    intros q Hq. rewrite inv_seg_nth by lia.
    destruct (Nat.ltb_spec q h) as [Hqh|Hqh].
    - destruct (D q Hqh) as [D1 D2].
      destruct (Nat.leb_spec (p * B) q), (Nat.ltb_spec q (p * B + B)); cbn [andb].
      + rewrite (Nat.add_comm q h), D1, D2. destruct (Nat.ltb_spec q (p * B)); [lia|].
        destruct (Nat.ltb_spec q ((p + 1) * B)); [|lia].
        destruct (Fa q) as [-> ->]; auto.
        rewrite HZ. unfold merge. rewrite app_nth1 by (rewrite tab_length; lia).
        now rewrite tab_nth by lia.
      + rewrite D1. bcase; try lia; auto.
      + rewrite D1. bcase; try lia; auto.
      + lia.
    - destruct (D (q - h)) as [D1 D2]; [lia|]. replace (h + (q - h)) with q in D2 by lia.
      destruct (Nat.leb_spec (p * B) (q - h)), (Nat.ltb_spec (q - h) (p * B + B)); cbn [andb].
      + rewrite D1, D2. destruct (Nat.ltb_spec (q - h) (p * B)); [lia|].
        destruct (Nat.ltb_spec (q - h) ((p + 1) * B)); [|lia].
        destruct (Fa (q - h)) as [-> ->]; auto; try lia.
        rewrite HZ. unfold merge. rewrite app_nth2 by (rewrite tab_length; lia).
        rewrite tab_length. now rewrite tab_nth by lia.
      + rewrite D2. bcase; try lia; auto.
      + rewrite D2. bcase; try lia; auto.
      + lia.
  Qed.
End Schedule.
