(** * UniformPartitionedConvolver: overlap-save with partitioned filters is convolution *)
From Verif.Model Require Import Base Arith Juce ComplexBuffer FrequencyDelayLine SplitBlock
     CircularBuffer Partitioning UniformPartitionedConvolver.
From Verif.Spec Require Import Transform Buffers RealFFT Signal.
From Verif.Proofs Require Import Lists ComplexAlg FFTProof Blocks Delay FloatProof RealFFTProof Streams.

Section ring.
  Lemma rdist_mod N a d : 0 < N -> d < N -> rdist N (a mod N) ((a + d) mod N) = d.
  Proof.
    intros HN Hd. pose proof (Nat.mod_upper_bound a N ltac:(lia)) as Hp.
    rewrite <- Nat.add_mod_idemp_l by lia. set (p := a mod N) in *.
    rewrite mod_ring by auto. unfold rdist. bcase; lia.
  Qed.
End ring.

Section UPCProof.
  Context {A : arith} (L : arith_laws A) (R : rfft A) (HR : rfft_ok R).
  Let Sring := law_ring A L.
  Add Ring sring : Sring.
  Let Cring := cring L.
  Add Ring cring' : Cring.

  Lemma transform_all n (f : list (sample A) -> list (sample A)) (g : nat -> list (sample A)) :
    for_n n (fun c blk => blk_transform f blk c) (tab n g : audio A) = Ok (tab n (fun c => f (g c))).
  Proof.
    assert (E : forall m, tab n g = tab n (fun c => if c <? 0 then m c else g c)) by reflexivity.
    rewrite (E (fun c => f (g c))).
    rewrite (for_n_seq (fun i => tab n (fun c => if c <? i then f (g c) else g c) : audio A)).
    - f_equal. apply tab_ext. intros i Hi. bcase; auto; lia.
    - intros i Hi. unfold blk_transform. rewrite get_tab by auto. cbn [bind].
      rewrite Nat.ltb_irrefl, set_tab by auto. f_equal. apply tab_ext. intros j Hj.
      bcase; subst; auto; try lia. 
  Qed.

  Lemma ssum_front a (f : nat -> sample A) : ssum (S a) f = sadd (f 0) (ssum a (fun i => f (S i))).
  Proof.
    change (S a) with (1 + a). rewrite (ssum_app L). f_equal. cbn [ssum]. ring.
  Qed.
  Lemma ssum_rev a : forall (g : nat -> sample A), ssum a (fun j => g (a - 1 - j)) = ssum a g.
  Proof.
    induction a; intros g; auto. rewrite ssum_front. cbn [ssum]. rewrite <- (IHa g).
    replace (S a - 1 - 0) with a by lia.
    rewrite (ssum_ext a (fun i => g (S a - 1 - S i)) (fun j => g (a - 1 - j))).
    - ring.
    - intros. f_equal. lia.
  Qed.

  (** the point [b] of channel [c] *)
  Lemma point_cmk n m (f : nat -> nat -> cplx A) c p : c < n -> p < m -> point (cmk n m f) c p = f c p.
  Proof. intros. unfold point, elem, cmk. cbn [cb_data]. now rewrite mk_nth, tab_nth. Qed.
  Lemma cmk_point n m (b : cbuf A) : cshaped n m b -> b = cmk n m (point b).
  Proof. apply cshaped_eq. Qed.

  Lemma cb_block_clear n F : cb_block (cmk n F (fun _ _ => @c0 A)) = mk n (2 * F) (fun _ _ => s0).
  Proof.
    unfold cb_block, cmk. cbn [cb_data]. unfold mk. rewrite tab_map. apply tab_ext. intros.
    apply flat_zero.
  Qed.

  (** a block of [n] channels of [2F] floats read as complex points *)
  Lemma set_block_shaped n F b (g : nat -> list (sample A)) :
    cb_points b = F -> (forall c, c < n -> length (g c) = 2 * F) ->
    cshaped n F (cb_set_block b (tab n g)) /\
    forall c p, c < n -> point (cb_set_block b (tab n g)) c p = nth p (pairs (g c)) c0.
  Proof.
    intros Hb Hg. unfold cb_set_block. rewrite tab_map. split.
    - split; [exact Hb|]. cbn [cb_data]. split; [apply tab_length|]. intros l Hl.
      unfold tab in Hl. apply in_map_iff in Hl as (c & <- & Hc). apply in_seq in Hc.
      apply pairs_length, Hg. lia.
    - intros c p Hc. unfold point, elem. cbn [cb_data]. now rewrite tab_nth.
  Qed.

  Lemma half_lt k : 0 < k -> 2 ^ (k - 1) < 2 ^ k.
  Proof. intros. apply Nat.pow_lt_mono_r; lia. Qed.

  Section Fixed.
    Variables (n P k K : nat) (h : nat -> nat -> sample A) (x : nat -> nat -> sample A).
    Hypothesis (Hn : 0 < n) (HP : 0 < P) (Hk : 0 < k) (HF : 2 * P <= 2 ^ k) (HK : 0 < K).
    Notation F := (2 ^ k).
    Notation D := (2 ^ k - P).

    (** coefficient [b] (0 .. F/2) of the window of F samples that ended [i] partitions
        before time [e + F - d] ... *)
    Definition wbin (c e d b : nat) : cplx A := rd F (fun j => ago (x c) (e + j) d) b.
    (** ... and of partition [i] of the filter *)
    Definition hpart (c i j : nat) : sample A := if j <? P then h c (i * P + j) else s0.
    Definition hbin (c i b : nat) : cplx A := rd F (hpart c i) b.

    Definition upc_static (u : upc A) : Prop :=
      u_fft_size u = F /\ u_order u = k /\ u_discard u = D /\ u_partition u = P /\
      length (u_filters u) = K /\
      (forall i, i < K -> cshaped n F (nth i (u_filters u) (cb_make 0 0)) /\
         forall c b, c < n -> b <= 2 ^ (k - 1) ->
           point (nth i (u_filters u) (cb_make 0 0)) c b = hbin c i b) /\
      cshaped n F (u_conv u) /\ cshaped n F (u_ifft u) /\ u_head u < F.

    (** between two partitions, [m] partitions processed *)
    Definition rest (m : nat) (u : upc A) : Prop :=
      upc_static u /\ u_collected u = 0 /\
      (exists hf, fdl_rep K (u_fdl u) hf /\ forall i, i < K -> cshaped n F (hf i) /\
         forall c b, c < n -> b <= 2 ^ (k - 1) -> point (hf i) c b = wbin c (m * P) (i * P + F) b) /\
      (exists r, u_saved u = mk n F r /\
         forall c j, c < n -> j < F -> r c ((u_head u + j) mod F) = ago (x c) (m * P + j) F).

    (** inside partition [m], [col] samples of it processed *)
    Definition mid (m col : nat) (u : upc A) : Prop :=
      upc_static u /\ u_collected u = col /\ col < P /\
      (exists hf, fdl_rep K (u_fdl u) hf /\ cshaped n F (hf 0) /\
         forall i, 0 < i < K -> cshaped n F (hf i) /\
         forall c b, c < n -> b <= 2 ^ (k - 1) -> point (hf i) c b = wbin c (m * P) (i * P + D) b) /\
      (exists r, u_saved u = mk n F r /\
         forall c j, c < n -> j < D + col -> r c ((u_head u + j) mod F) = ago (x c) (m * P + j) D) /\
      (forall c b, c < n -> b <= 2 ^ (k - 1) ->
         point (u_conv u) c b
         = csum (K - 1) (fun i => cmul (wbin c (m * P) (S i * P + D) b) (hbin c (S i) b))).

    Lemma begin_ok m u : rest m u -> exists u', upc_begin_partition u = Ok u' /\ mid m 0 u'.
    Proof.
      intros ((S1 & S2 & S3 & S4 & S5 & S6 & S7 & S8 & S9) & Hcol & (hf & Hrep & Hhf) & (r & Hr & Hrv)).
      pose proof (half_lt k Hk) as HH.
      unfold upc_begin_partition.
      destruct (fdl_next_rep K _ _ Hrep) as (f' & -> & Hrep'). cbn [bind].
      set (hf' := fun i => match i with 0 => hf (K - 1) | S j => hf j end) in *.
      (* the accumulation loop *)
      assert (Loop : exists conv,
        for_from 1 (length (u_filters u) - 1) (fun partition_index conv =>
          previous_fdl_block <- fdl_get f' partition_index ;;
          partition <- get (u_filters u) partition_index ;;
          cb_multiply_accumulate_from conv previous_fdl_block partition) (cb_clear (u_conv u)) = Ok conv
        /\ (cshaped n F conv /\ forall c b, c < n -> b <= 2 ^ (k - 1) ->
            point conv c b = csum (1 + (length (u_filters u) - 1) - 1)
               (fun i => cmul (wbin c (m * P) (S i * P + D) b) (hbin c (S i) b)))).
      { rewrite S5. apply (for_from_inv (fun i conv => cshaped n F conv /\
          forall c b, c < n -> b <= 2 ^ (k - 1) ->
            point conv c b = csum (i - 1)
               (fun i => cmul (wbin c (m * P) (S i * P + D) b) (hbin c (S i) b)))).
        - intros i conv Hi (Hc & Hv).
          rewrite (fdl_get_rep K f' hf' i Hrep') by lia. cbn [bind].
          rewrite get_ok with (d := cb_make 0 0) by lia. cbn [bind].
          destruct (S6 i) as (Sh & Sv); [lia|].
          destruct i as [|i']; [lia|]. cbn [hf'].
          destruct (Hhf i') as (Ch & Cv); [lia|].
          rewrite (cmk_point _ _ _ Hc), (cmk_point _ _ _ Ch), (cmk_point _ _ _ Sh), cb_mac_cmk.
          eexists. split; [reflexivity|]. split; [apply cshaped_cmk|].
          intros c b Hc' Hb. rewrite point_cmk by (auto; lia).
          rewrite Hv, Cv, Sv by auto. replace (S (S i') - 1) with (S (S i' - 1)) by lia.
          cbn [csum]. replace (S i' - 1) with i' by lia. f_equal. f_equal. f_equal. lia.
        - rewrite (cb_clear_shaped n F) by auto. split; [apply cshaped_cmk|].
          intros c b Hc Hb. rewrite point_cmk by (auto; lia). reflexivity. }
      destruct Loop as (conv & -> & Hconv & Hcv). cbn [bind].
      rewrite S5 in Hcv. replace (1 + (K - 1) - 1) with (K - 1) in Hcv by lia.
      rewrite Hr, num_samples_mk by auto. pose proof (pow2_pos k) as HF0.
      rewrite cbuf_next_ok by auto. cbn [bind].
      eexists. split; [reflexivity|].
      unfold mid, upc_static. cbn [u_fft_size u_order u_discard u_collected u_partition u_fdl u_conv u_ifft u_filters u_saved u_head].
      rewrite S4.
      split; [do 8 (split; [first [assumption|reflexivity]|]); apply Nat.mod_upper_bound; lia|].
      split; [auto|]. split; [auto|]. split.
      { exists hf'. split; [exact Hrep'|]. split; [apply Hhf; lia|].
        intros [|i] Hi; [lia|]. cbn [hf']. destruct (Hhf i) as (Ch & Cv); [lia|]. split; auto.
        intros c b Hc Hb. rewrite Cv by auto. f_equal. lia. }
      split.
      { exists r. split; auto. intros c j Hc Hj. rewrite Nat.add_mod_idemp_l by lia.
        replace (u_head u + P + j) with (u_head u + (P + j)) by lia.
        rewrite Hrv by (auto; lia). apply ago_eq. lia. }
      intros c b Hc Hb. now apply Hcv.
    Qed.

    (** the samples handled by one round: the output of the filter *)
    Notation Y c t := (fir (K * P) (h c) (x c) t).

    Lemma ago_ssum_parts c (w : nat -> nat -> sample A) m t :
      D <= t < F ->
      (forall i j, i < K -> j <= t -> w i j = ago (x c) (m * P + j) (i * P + D)) ->
      ssum K (fun i => rcirc F (w i) (hpart c i) t) = Y c (m * P + t - D).
    Proof.
      intros Ht Hw. unfold fir. rewrite (ssum_blocks L). apply ssum_ext. intros i Hi.
      unfold rcirc.
      (* reverse the order of the sum *)
      transitivity (ssum F (fun q => smul (hpart c i q) (w i ((t + F - q) mod F)))).
      { clear Hw. pose proof (pow2_pos k) as HF0.
        (* both are sums over pairs with j + q = t mod F *)
        assert (G : forall f : nat -> sample A, 
                  ssum F (fun j => f ((t + F - j) mod F)) = ssum F f).
        { intros f.
          pose proof ssum_rev as Ha.
          (* split at t+1 *)
          replace F with (S t + (F - S t)) at 1 by lia. rewrite (ssum_app L).
          replace (ssum F f) with (ssum (S t + (F - S t)) f) by (f_equal; lia). rewrite (ssum_app L).
          f_equal.
          - rewrite <- (Ha (S t) f). apply ssum_ext. intros j Hj. f_equal.
            replace (t + F - j) with (t - j + 1 * F) by lia. rewrite Nat.mod_add by lia.
            rewrite Nat.mod_small by lia. lia.
          - rewrite <- (Ha (F - S t)). apply ssum_ext. intros j Hj. f_equal.
            rewrite Nat.mod_small by lia. lia. }
        rewrite <- (G (fun j => smul (w i j) _)). apply ssum_ext. intros q Hq.
        assert (E : (t + F - (t + F - q) mod F) mod F = q).
        { destruct (Nat.le_gt_cases q t).
          - replace (t + F - q) with (t - q + 1 * F) by lia. rewrite Nat.mod_add by lia.
            rewrite (Nat.mod_small (t - q)) by lia.
            replace (t + F - (t - q)) with (q + 1 * F) by lia. rewrite Nat.mod_add by lia.
            apply Nat.mod_small. lia.
          - rewrite (Nat.mod_small (t + F - q)) by lia.
            replace (t + F - (t + F - q)) with q by lia. apply Nat.mod_small. lia. }
        rewrite E. ring. }
      rewrite (ssum_extend L P F); [|lia|].
      - apply ssum_ext. intros q Hq. unfold hpart. bcase; try lia. f_equal.
        replace (t + F - q) with (t - q + 1 * F) by lia. rewrite Nat.mod_add, Nat.mod_small by lia.
        rewrite Hw by lia. apply ago_eq. lia.
      - intros q Hq. unfold hpart. bcase; try lia. ring.
    Qed.

    Definition at_rest_or_mid (T : nat) (u : upc A) : Prop :=
      (exists m, T = m * P /\ rest m u) \/ (exists m col, T = m * P + col /\ 0 < col /\ mid m col u).

    Lemma round_ok T u size done f :
      at_rest_or_mid T u -> done < size ->
      (forall c i, c < n -> done <= i < size -> f c i = x c (T + (i - done))) ->
      exists u' todo, 0 < todo <= size - done /\
        upc_round R (u, mk n size f, done)
        = Ok (u', mk n size (fun c i => if (done <=? i) && (i <? done + todo)
                                        then Y c (T + (i - done)) else f c i), done + todo) /\
        at_rest_or_mid (T + todo) u'.
    Proof.
      intros HT Hds Hf.
      assert (HM : exists m col u1, T = m * P + col /\ mid m col u1 /\
                 (if u_collected u =? 0 then upc_begin_partition u else Ok u) = Ok u1).
      { destruct HT as [(m & -> & Hrest)|(m & col & -> & Hcol & Hmid)].
        - destruct (begin_ok m u Hrest) as (u1 & E & Hm). exists m, 0, u1. split; [lia|]. split; auto.
          destruct Hrest as (_ & -> & _). exact E.
        - exists m, col, u. split; [reflexivity|]. split; auto. destruct Hmid as (_ & -> & _).
          destruct (Nat.eqb_spec col 0); [lia|reflexivity]. }
      destruct HM as (m & col & u1 & -> & Hmid & E1).
      destruct Hmid as ((S1 & S2 & S3 & S4 & S5 & S6 & S7 & S8 & S9) & Hcol & HcP &
                        (hf & Hrep & Hsh0 & Hhf) & (r & Hr & Hrv) & Hconv).
      pose proof (half_lt k Hk) as HH. pose proof (pow2_pos k) as HF0.
      set (todo := Nat.min (size - done) (P - col)).
      assert (Htodo : 0 < todo <= size - done) by lia. assert (HtP : col + todo <= P) by lia.
      unfold upc_round. rewrite E1. cbn [bind].
      rewrite S4, Hcol. unfold usub at 1. destruct (Nat.leb_spec col P); [|lia]. cbn [bind].
      rewrite num_samples_mk by auto. fold todo.
      rewrite (fdl_get_rep K _ _ 0 Hrep) by lia. cbn [bind].
      rewrite (cb_clear_shaped n F (hf 0)) by auto.
      rewrite blk_sub_mk by lia. cbn [bind].
      rewrite Hr, num_samples_mk by auto. rewrite cbuf_next_ok by auto. cbn [bind].
      rewrite S3. unfold sb_copy_from.
      rewrite ring_apply_mk; [|auto|apply Nat.mod_upper_bound; lia|lia]. cbn [bind].
      set (p := (u_head u1 + (D + col)) mod F).
      set (r' := fun c i => if rdist F p i <? todo then f_copy (r c i) (f c (done + rdist F p i)) else r c i).
      assert (Hr' : forall c j, c < n -> j < D + (col + todo) ->
                r' c ((u_head u1 + j) mod F) = ago (x c) (m * P + j) D).
      { intros c j Hc Hj. unfold r', p. destruct (Nat.le_gt_cases (D + col) j).
        - replace (u_head u1 + j) with (u_head u1 + (D + col) + (j - (D + col))) by lia.
          rewrite rdist_mod by lia. destruct (Nat.ltb_spec (j - (D + col)) todo); [|lia].
          unfold f_copy. rewrite Hf by lia. symmetry. apply ago_now. lia.
        - assert (Ej : (u_head u1 + j) mod F = (u_head u1 + (D + col) + (j + P - col)) mod F).
          { replace (u_head u1 + (D + col) + (j + P - col)) with (u_head u1 + j + 1 * F) by lia.
            now rewrite Nat.mod_add by lia. }
          rewrite Ej, rdist_mod by lia. destruct (Nat.ltb_spec (j + P - col) todo); [lia|].
          rewrite <- Ej. now apply Hrv. }
      rewrite num_samples_mk by auto. rewrite cbuf_next_ok by auto. cbn [bind].
      rewrite cb_block_clear. unfold sb_copy_to. rewrite Nat.add_0_r, (Nat.mod_small (u_head u1)) by auto.
      rewrite ring_apply_to_mk by auto. cbn [bind].
      assert (Elen : length (mk n size f : audio A) = n) by apply mk_length.
      rewrite !Elen, S2. unfold mk at 1. rewrite transform_all. cbn [bind].
      set (w := fun c i => if i <? F then f_copy (@s0 A) (r' c ((u_head u1 + i) mod F)) else s0).
      set (X := fun c => rfft_fwd R k (tab (2 * F) (w c))).
      assert (HXl : forall c, c < n -> length (X c) = 2 * F).
      { intros c Hc. apply (fwd_length R HR); auto. apply tab_length. }
      assert (HXb : forall c b, b <= 2 ^ (k - 1) ->
                nth b (pairs (X c)) c0 = rd F (fun j => r' c ((u_head u1 + j) mod F)) b).
      { intros c b Hb. unfold X. rewrite (fwd_bins R HR) by (auto; apply tab_length).
        rewrite tab_firstn, Nat.min_l by lia. apply rd_ext. intros j Hj. unfold w.
        bcase; try lia. reflexivity. }
      destruct (set_block_shaped n F (cmk n F (fun _ _ => c0)) X) as (Hfirst & Hfv); auto.
      fold X. set (first := cb_set_block _ _) in *.
      destruct (fdl_put_rep K _ _ first Hrep) as (f2 & -> & Hrep2). cbn [bind].
      rewrite get_ok with (d := cb_make 0 0) by lia. cbn [bind].
      destruct (S6 0) as (Sh0 & Sv0); [lia|].
      rewrite (cmk_point _ _ _ S8), (cmk_point _ _ _ Hfirst), (cmk_point _ _ _ Sh0), cb_multiply_cmk.
      cbn [bind]. rewrite (cmk_point _ _ _ S7), cb_add_cmk. cbn [bind].
      set (S_ := fun c i => cadd (cmul (point first c i) (point (nth 0 (u_filters u1) (cb_make 0 0)) c i))
                                 (point (u_conv u1) c i)).
      unfold cb_block at 1. unfold cmk at 1. cbn [cb_data]. unfold mk at 1. rewrite tab_map.
      rewrite transform_all. cbn [bind].
      set (Z_ := fun c => rfft_inv R k (flat (tab F (S_ c)))).
      assert (Hflat : forall c, length (flat (tab F (S_ c))) = 2 * F).
      { intros. rewrite flat_length, tab_length. reflexivity. }
      assert (HZl : forall c, c < n -> length (Z_ c) = 2 * F).
      { intros c Hc. apply (inv_length R HR); auto. }
      (* the inverse transform is the sum of the circular convolutions *)
      set (wf := fun c i j => if i =? 0 then r' c ((u_head u1 + j) mod F)
                              else ago (x c) (m * P + j) (i * P + D)).
      assert (HZ : forall c, c < n ->
                firstn F (Z_ c) = tab F (fun t => ssum K (fun i => rcirc F (wf c i) (hpart c i) t))).
      { intros c Hc. apply (inv_real R HR); auto; [apply tab_length|].
        intros b Hb. rewrite pairs_flat, tab_nth by lia.
        change (S_ c b = rd F (fun t => ssum K (fun i => rcirc F (wf c i) (hpart c i) t)) b).
        rewrite (rd_sum L). unfold S_. rewrite Hfv, HXb, Sv0, Hconv by auto.
        replace K with (1 + (K - 1)) by lia. rewrite (csum_app L). simpl csum at 2.
        rewrite (rd_circ L). replace (1 + (K - 1) - 1) with (K - 1) by lia.
        replace (cadd c0 (cmul (rd F (wf c 0) b) (rd F (hpart c 0) b)))
          with (cmul (rd F (wf c 0) b) (rd F (hpart c 0) b)) by ring.
        f_equal. apply csum_ext. intros i Hi. rewrite (rd_circ L). reflexivity. }
      assert (EZ : (tab n Z_ : audio A) = mk n (2 * F) (fun c i => nth i (Z_ c) s0)).
      { unfold mk. apply tab_ext. intros c Hc. apply list_tab with (d := s0); auto. }
      rewrite whole_mk, view_sub_ok by (auto; cbn [v_len]; lia). cbn [bind v_start].
      match goal with |- context [blk_sub ?b ?o todo] =>
        change (blk_sub b o todo) with (blk_sub (tab n Z_ : audio A) o todo) end.
      rewrite EZ, blk_sub_mk by lia. cbn [bind].
      unfold blk_copy_from. rewrite blk_apply_mk by (cbn [v_start v_len]; lia). cbn [bind v_start v_len].
      unfold umod. destruct (Nat.eqb_spec P 0); [lia|]. cbn [bind].
      destruct (set_block_shaped n F (cmk n F S_) Z_) as (Hifft & _); auto.
      rewrite EZ in Hifft.
      eexists. exists todo. split; [auto|]. split.
      { f_equal. f_equal. f_equal. apply mk_ext. intros c i Hc Hi. rewrite Nat.min_id, !Nat.add_0_l.
        destruct ((done <=? i) && (i <? done + todo)) eqn:Ei; auto.
        apply andb_true_iff in Ei as [Ei1 Ei2]. apply Nat.leb_le in Ei1. apply Nat.ltb_lt in Ei2.
        unfold f_copy.
        assert (Ht : D + col + (i - done) < F) by lia.
        transitivity (nth (D + col + (i - done)) (firstn F (Z_ c)) s0).
        { rewrite nth_firstn'. destruct (Nat.ltb_spec (D + col + (i - done)) F); [reflexivity|lia]. }
        rewrite HZ, tab_nth by auto.
        rewrite (ago_ssum_parts c (wf c) m) by
          (try lia; intros q j Hq Hj; unfold wf; destruct (Nat.eqb_spec q 0) as [->|]; auto;
           rewrite Hr' by lia; reflexivity).
        f_equal. lia. }
      (* the new state *)
      unfold at_rest_or_mid, rest, mid, upc_static.
      cbn [u_fft_size u_order u_discard u_collected u_partition u_fdl u_conv u_ifft u_filters u_saved u_head].
      rewrite <- ?(cmk_point _ _ _ S7).
      destruct (Nat.eq_dec (col + todo) P) as [Efull|Npart].
      - left. exists (S m). split; [simpl; lia|]. rewrite Efull, Nat.mod_same by lia.
        split; [do 8 (split; [first [assumption|reflexivity|apply cshaped_cmk|exact Hifft]|]); assumption|].
        split; [reflexivity|]. split.
        + eexists. split; [exact Hrep2|]. intros i Hi. cbv beta. destruct (Nat.eqb_spec i 0) as [->|Hi0].
          * split; auto. intros c b Hc Hb. rewrite Hfv, HXb by auto. unfold wbin.
            apply rd_ext. intros j Hj. rewrite Hr' by lia. apply ago_eq. simpl. lia.
          * destruct (Hhf i) as (Ch & Cv); [lia|]. split; auto. intros c b Hc Hb. rewrite Cv by auto.
            unfold wbin. apply rd_ext. intros j Hj. apply ago_eq. simpl. lia.
        + exists r'. split; [reflexivity|]. intros c j Hc Hj. rewrite Hr' by lia. apply ago_eq.
          simpl. lia.
      - right. exists m, (col + todo). split; [lia|]. split; [lia|].
        rewrite (Nat.mod_small (col + todo)) by lia.
        split; [do 8 (split; [first [assumption|reflexivity|apply cshaped_cmk|exact Hifft]|]); assumption|].
        split; [reflexivity|]. split; [lia|]. split.
        + eexists. split; [exact Hrep2|]. split; [exact Hfirst|]. intros i Hi. cbv beta.
          destruct (Nat.eqb_spec i 0); [lia|]. now apply Hhf.
        + split; auto. exists r'. split; [reflexivity|]. intros c j Hc Hj. rewrite Hr' by lia. reflexivity.
    Qed.

    Lemma process_loop : forall fuel T u size done f,
      size - done <= fuel -> done <= size -> at_rest_or_mid T u ->
      (forall c i, c < n -> done <= i < size -> f c i = x c (T + (i - done))) ->
      exists u' d, while_ fuel (fun st => snd st <? num_samples (snd (fst st)))
                     (upc_round R) (u, mk n size f, done)
              = Ok (u', mk n size (fun c i => if done <=? i then Y c (T + (i - done)) else f c i), d) /\
        at_rest_or_mid (T + (size - done)) u'.
    Proof.
      induction fuel; intros T u size done f Hfuel Hds HT Hf.
      - assert (done = size) by lia. subst done. exists u, size. split.
        + rewrite while_end by (cbn [fst snd]; rewrite num_samples_mk by auto; apply Nat.ltb_irrefl).
          do 3 f_equal. apply mk_ext. intros. bcase; auto; lia.
        + now rewrite Nat.sub_diag, Nat.add_0_r.
      - destruct (Nat.eq_dec done size) as [->|Hne].
        { exists u, size. split.
          + rewrite while_end by (cbn [fst snd]; rewrite num_samples_mk by auto; apply Nat.ltb_irrefl).
            do 3 f_equal. apply mk_ext. intros. bcase; auto; lia.
          + now rewrite Nat.sub_diag, Nat.add_0_r. }
        destruct (round_ok T u size done f) as (u1 & todo & Htodo & E & HT1); auto; [lia|].
        erewrite while_step; [|cbn [fst snd]; rewrite num_samples_mk by auto; apply Nat.ltb_lt; lia|exact E].
        edestruct (IHfuel (T + todo) u1 size (done + todo)) as (u' & d & E' & HT'); [lia|lia|exact HT1| |].
        2:{ exists u', d. split.
            - etransitivity; [exact E'|]. do 3 f_equal. apply mk_ext. intros c i Hc Hi.
              bcase; try lia; auto; f_equal; lia.
            - replace (T + (size - done)) with (T + todo + (size - (done + todo))) by lia. exact HT'. }
        intros c i Hc Hi. cbv beta. bcase; try lia. rewrite Hf by lia. f_equal. lia.
    Qed.

    Lemma upc_process_ok T u m :
      at_rest_or_mid T u ->
      exists u', upc_process R u (mk n m (fun c i => x c (T + i)))
                 = Ok (u', mk n m (fun c i => Y c (T + i))) /\ at_rest_or_mid (T + m) u'.
    Proof.
      intros HT. unfold upc_process. rewrite num_samples_mk by auto.
      destruct (process_loop m T u m 0 (fun c i => x c (T + i))) as (u' & d & E & H); auto; try lia.
      { intros. f_equal. lia. }
      exists u'. split.
      - eapply bind_eq; [exact E|]. cbv beta iota. do 2 f_equal. apply mk_ext. intros.
        cbn [Nat.leb]. now rewrite Nat.sub_0_r.
      - now rewrite Nat.sub_0_r in H.
    Qed.
  End Fixed.

  Section Make.
    Variables (n P k K : nat) (h : nat -> nat -> sample A).
    Hypothesis (Hn : 0 < n) (HP : 0 < P) (Hk : 0 < k) (HF : 2 * P <= 2 ^ k) (HK : 0 < K).

    (** Reset, from any state: as if nothing had been processed *)
    Lemma upc_reset_ok x T u x' :
      at_rest_or_mid n P k K h x T u -> rest n P k K h x' 0 (upc_reset u).
    Proof.
      intros H.
      assert (G : upc_static n P k K h u /\ (exists hf, fdl_rep K (u_fdl u) hf /\ forall i, i < K -> cshaped n (2 ^ k) (hf i)) /\
                  exists r, u_saved u = mk n (2 ^ k) r).
      { destruct H as [(m & _ & S1 & _ & (hf & Hr & Hc) & (r & Er & _))
                      |(m & col & _ & _ & S1 & _ & _ & (hf & Hr & H0 & Hc) & (r & Er & _) & _)].
        - split; auto. split; eauto. exists hf. split; auto. intros. now apply Hc.
        - split; auto. split; eauto. exists hf. split; auto. intros [|i] Hi; auto. apply Hc. lia. }
      destruct G as ((S1 & S2 & S3 & S4 & S5 & S6 & S7 & S8 & S9) & (hf & Hrep & Hc) & (r & Er)).
      pose proof (half_lt k Hk) as HH.
      unfold rest, upc_static, upc_reset.
      cbn [u_fft_size u_order u_discard u_collected u_partition u_fdl u_conv u_ifft u_filters u_saved u_head].
      rewrite (cb_clear_shaped n (2 ^ k) (u_conv u)), (cb_clear_shaped n (2 ^ k) (u_ifft u)) by auto.
      split; [do 8 (split; [first [assumption|reflexivity|apply cshaped_cmk]|]); assumption|].
      split; [reflexivity|]. split.
      - eexists. split; [apply fdl_clear_rep; exact Hrep|]. intros i Hi. cbv beta.
        rewrite (cb_clear_shaped n (2 ^ k)) by auto. split; [apply cshaped_cmk|].
        intros c b Hc' Hb. rewrite point_cmk by (auto; lia). unfold wbin.
        rewrite <- (rd_zero L (2 ^ k) b). apply rd_ext. intros j Hj. symmetry. apply ago_before. lia.
      - rewrite Er, audio_clear_mk. eexists. split; [reflexivity|]. intros c j Hc' Hj. cbv beta.
        symmetry. apply ago_before. lia.
    Qed.
  End Make.

  (** the response as a function: channel [c mod nir] *)
  Definition ir_fun (ir : audio A) (c j : nat) : sample A := nth j (nth (c mod length ir) ir []) s0.

  Lemma upc_filter_ok n P k (ir : audio A) m i :
    0 < n -> 0 < P -> 0 < k -> 2 * P <= 2 ^ k -> 0 < length ir -> shaped (length ir) m ir -> i * P < m ->
    exists f, upc_filter R n (2 ^ k) k P ir i = Ok f /\ cshaped n (2 ^ k) f /\
      forall c b, c < n -> b <= 2 ^ (k - 1) -> point f c b = hbin P k (ir_fun ir) c i b.
  Proof.
    intros Hn HP Hk HF Hlen Hsh Hi. unfold upc_filter.
    assert (Eir : ir = mk (length ir) m (fun c j => nth j (nth c ir []) s0)) by now apply shaped_eq.
    set (nir := length ir) in *.
    assert (Ens : num_samples ir = m) by (rewrite Eir; now apply num_samples_mk).
    rewrite Ens. unfold usub. destruct (Nat.leb_spec (i * P) m); [|lia]. cbn [bind].
    set (len := Nat.min P (m - i * P)).
    assert (EB : blk_sub ir (i * P) len = Ok (mk nir len (fun c j => nth (i * P + j) (nth c ir []) s0))).
    { rewrite Eir at 1. apply blk_sub_mk; lia. }
    eexists. split.
    - eapply bind_eq; [exact EB|].
      rewrite cb_make_cmk, cb_clear_cmk, cb_block_clear.
      set (src := fun c j => nth (i * P + j) (nth c ir []) s0).
      set (G := fun c => rfft_fwd R k (tab (2 * 2 ^ k) (fun j => if j <? len then src (c mod nir) j else s0))).
      eapply bind_eq; [|reflexivity].
      rewrite (for_n_seq (fun t => tab n (fun c => if c <? t then G c else tab (2 * 2 ^ k) (fun _ => s0)) : audio A)).
      + reflexivity.
      + intros c Hc. unfold umod. destruct (Nat.eqb_spec nir 0); [lia|]. cbn [bind].
        unfold mk. rewrite get_tab by (apply Nat.mod_upper_bound; lia). cbn [bind].
        rewrite get_tab by auto. cbn [bind]. rewrite Nat.ltb_irrefl, tab_length, tab_firstn.
        rewrite Nat.min_r by lia. rewrite chan_apply_tab by lia. cbn [bind].
        rewrite set_tab by auto. cbn [bind]. unfold blk_transform. rewrite get_tab by auto. cbn [bind].
        rewrite Nat.eqb_refl, set_tab by auto. f_equal. apply tab_ext. intros j Hj.
        destruct (Nat.eqb_spec j c) as [->|Hjc].
        * destruct (Nat.ltb_spec c (S c)); [|lia]. unfold G. f_equal. apply tab_ext. intros q Hq.
          unfold f_copy. cbn [Nat.leb andb]. rewrite Nat.add_0_l, Nat.sub_0_r. reflexivity.
        * bcase; auto; lia.
    - set (src := fun c j => nth (i * P + j) (nth c ir []) s0).
      set (G := fun c => rfft_fwd R k (tab (2 * 2 ^ k) (fun j => if j <? len then src (c mod nir) j else s0))).
      destruct (set_block_shaped n (2 ^ k) (cmk n (2 ^ k) (fun _ _ => c0)) G) as (H1 & H2); auto.
      { intros c Hc. apply (fwd_length R HR); auto. apply tab_length. }
      assert (Et : tab n (fun c => if c <? n then G c else tab (2 * 2 ^ k) (fun _ => s0)) = tab n G).
      { apply tab_ext. intros c Hc. bcase; auto; lia. }
      rewrite Et. split; auto. intros c b Hc Hb.
      rewrite H2 by auto. unfold G. rewrite (fwd_bins R HR) by (auto; apply tab_length).
      rewrite tab_firstn, Nat.min_l by lia. unfold hbin. apply rd_ext. intros j Hj. unfold hpart, ir_fun, src.
      fold nir. bcase; auto; try lia.
      symmetry. apply nth_overflow.
      assert (length (nth (c mod nir) ir []) = m); [|lia].
      apply Hsh, nth_In. fold nir. apply Nat.mod_upper_bound. lia.
  Qed.

  Lemma next_pow2_ok P : 0 < P -> exists k, 0 < k /\ next_pow2 (P * 2) = 2 ^ k /\ 2 * P <= 2 ^ k /\
    Nat.log2 (2 ^ k) = k.
  Proof.
    intros HP. exists (Nat.log2_up (P * 2)). unfold next_pow2.
    pose proof (Nat.log2_up_spec (P * 2) ltac:(lia)) as [H1 H2].
    assert (0 < Nat.log2_up (P * 2)) by (apply Nat.log2_up_pos; lia).
    repeat split; auto; [lia|]. apply Nat.log2_pow2. lia.
  Qed.

  Lemma upc_make_ok n P (ir : audio A) m :
    0 < n -> 0 < P -> 0 < length ir -> shaped (length ir) m ir -> 0 < m -> (Z.of_nat m <= 2 ^ 24)%Z ->
    exists k K u, 0 < k /\ 2 * P <= 2 ^ k /\ 0 < K /\ m <= K * P /\
      upc_make R n P ir = Ok u /\ forall x, rest n P k K (ir_fun ir) x 0 u.
  Proof.
    intros Hn HP Hl Hsh Hm Hm24. unfold upc_make. rewrite assert_true by (now apply Nat.ltb_lt). cbn [bind].
    destruct (next_pow2_ok P HP) as (k & Hk & Ek & HF & El). rewrite Ek, El.
    assert (Ens : num_samples ir = m).
    { rewrite (shaped_eq _ _ _ s0 Hsh). now apply num_samples_mk. }
    rewrite Ens, num_partitions_exact by lia. cbn [bind].
    pose proof (zceil_spec (Z.of_nat m) (Z.of_nat P) ltac:(lia)) as HZ.
    set (K := Z.to_nat (zceil (Z.of_nat m) (Z.of_nat P))).
    assert (HKz : (0 < zceil (Z.of_nat m) (Z.of_nat P))%Z) by nia.
    assert (HK : 0 < K) by lia. assert (HKm : m <= K * P) by nia. assert (HKl : (K - 1) * P < m) by nia.
    assert (Hfil : forall i, exists f, i < K -> upc_filter R n (2 ^ k) k P ir i = Ok f /\ cshaped n (2 ^ k) f /\
      forall c b, c < n -> b <= 2 ^ (k - 1) -> point f c b = hbin P k (ir_fun ir) c i b).
    { intros i. destruct (Nat.lt_ge_cases i K).
      - destruct (upc_filter_ok n P k ir m i) as (f & Hf); auto; [nia|]. exists f. auto.
      - exists (cb_make 0 0). lia. }
    (* collect the filters *)
    assert (Hfs : exists fs, mapM (upc_filter R n (2 ^ k) k P ir) (seq 0 K) = Ok fs /\ length fs = K /\
      forall i, i < K -> cshaped n (2 ^ k) (nth i fs (cb_make 0 0)) /\
        forall c b, c < n -> b <= 2 ^ (k - 1) -> point (nth i fs (cb_make 0 0)) c b = hbin P k (ir_fun ir) c i b).
    { clear - Hfil. cut (forall q, q <= K -> exists fs, mapM (upc_filter R n (2 ^ k) k P ir) (seq (K - q) q) = Ok fs /\
        length fs = q /\ forall i, i < q -> cshaped n (2 ^ k) (nth i fs (cb_make 0 0)) /\
        forall c b, c < n -> b <= 2 ^ (k - 1) -> point (nth i fs (cb_make 0 0)) c b = hbin P k (ir_fun ir) c (K - q + i) b).
      { intros H. destruct (H K ltac:(lia)) as (fs & H1 & H2 & H3). rewrite Nat.sub_diag in *.
        exists fs. auto. }
      induction q; intros Hq.
      - exists []. split; [reflexivity|]. split; [reflexivity|]. lia.
      - destruct IHq as (fs & H1 & H2 & H3); [lia|].
        destruct (Hfil (K - S q)) as (f & Hf). destruct Hf as (F1 & F2 & F3); [lia|].
        exists (f :: fs). split; [|split].
        + cbn [seq mapM]. rewrite F1. cbn [bind]. replace (S (K - S q)) with (K - q) by lia.
          rewrite H1. reflexivity.
        + simpl. lia.
        + intros [|i] Hi; cbn [nth].
          * rewrite Nat.add_0_r. auto.
          * destruct (H3 i) as (H4 & H5); [lia|]. split; auto. intros. rewrite H5 by auto. f_equal. lia. }
    destruct Hfs as (fs & Efs & Lfs & Hfs).
    exists k, K. eexists. split; [auto|]. split; [auto|]. split; [auto|]. split; [auto|].
    split; [eapply bind_eq; [exact Efs|]; reflexivity|].
    intros x. set (u0 := {| u_fft_size := _ |}).
    assert (H0 : upc_static n P k K (ir_fun ir) u0).
    { unfold upc_static, u0.
      cbn [u_fft_size u_order u_discard u_collected u_partition u_fdl u_conv u_ifft u_filters u_saved u_head].
      pose proof (pow2_pos k).
      do 8 (split; [first [assumption|reflexivity|rewrite cb_make_cmk; apply cshaped_cmk]|]). assumption. }
    destruct H0 as (S1 & S2 & S3 & S4 & S5 & S6 & S7 & S8 & S9).
    unfold rest, upc_static, upc_reset.
    cbn [u_fft_size u_order u_discard u_collected u_partition u_fdl u_conv u_ifft u_filters u_saved u_head].
    rewrite (cb_clear_shaped n (2 ^ k) (u_conv u0)), (cb_clear_shaped n (2 ^ k) (u_ifft u0)) by auto.
    split; [do 8 (split; [first [assumption|reflexivity|apply cshaped_cmk]|]); assumption|].
    split; [reflexivity|]. pose proof (half_lt k Hk) as HH. split.
    - eexists. split; [apply fdl_clear_rep; unfold u0; cbn [u_fdl]; now apply fdl_make_rep|].
      intros i Hi. cbv beta. rewrite cb_clear_cmk. split; [apply cshaped_cmk|].
      intros c b Hc Hb. rewrite point_cmk by (auto; lia). unfold wbin.
      rewrite <- (rd_zero L (2 ^ k) b). apply rd_ext. intros j Hj. symmetry. apply ago_before. lia.
    - unfold u0. cbn [u_saved u_head]. rewrite zeros_mk, audio_clear_mk. eexists. split; [reflexivity|].
      intros. symmetry. apply ago_before. lia.
  Qed.
End UPCProof.
