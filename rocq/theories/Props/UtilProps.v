(** * C08 - C13: complex buffers, stage buffers, delay line, rings and split blocks *)
From Verif.Model Require Import Base Arith ArithMod Juce ComplexBuffer ComplexBufferHeap
     DecompositionSchedule FrequencyDelayLine SplitBlock CircularBuffer.
From Verif.Spec Require Import Buffers.
From Verif.Proofs Require Import Lists FFTProof Blocks Delay.

(** ** C08 *)
Theorem C08_pointwise : forall (A : arith) n m (self a b : cbuf A),
  has_dims n m self -> has_dims n m a -> has_dims n m b ->
  (exists r, cb_multiply_from self a b = Ok r /\ has_dims n m r /\
     forall c p, c < n -> p < m -> point r c p = cmul (point a c p) (point b c p)) /\
  (exists r, cb_add_from self b = Ok r /\ has_dims n m r /\
     forall c p, c < n -> p < m -> point r c p = cadd (point self c p) (point b c p)) /\
  (exists r, cb_multiply_accumulate_from self a b = Ok r /\ has_dims n m r /\
     forall c p, c < n -> p < m ->
       point r c p = cadd (point self c p) (cmul (point a c p) (point b c p))) /\
  (has_dims n m (cb_clear self) /\
     forall c p, c < n -> p < m -> point (cb_clear self) c p = c0).
Proof.
  intros A n m self a b Hs Ha Hb.
  pose proof (cshaped_eq _ _ _ Hs) as Es. pose proof (cshaped_eq _ _ _ Ha) as Ea.
  pose proof (cshaped_eq _ _ _ Hb) as Eb.
  assert (P : forall f c p, c < n -> p < m -> point (cmk n m f : cbuf A) c p = f c p).
  { intros f c p Hc Hp. unfold point, elem, cmk. cbn [cb_data]. rewrite mk_nth by auto.
    now rewrite tab_nth. }
  repeat split.
  - rewrite Es, Ea, Eb, cb_multiply_cmk. eexists. split; [reflexivity|].
    split; [apply cshaped_cmk|]. intros. now rewrite !P.
  - rewrite Es, Eb, cb_add_cmk. eexists. split; [reflexivity|].
    split; [apply cshaped_cmk|]. intros. now rewrite !P.
  - rewrite Es, Ea, Eb, cb_mac_cmk. eexists. split; [reflexivity|].
    split; [apply cshaped_cmk|]. intros. now rewrite !P.
  - cbn. apply Hs.
  - cbn. rewrite map_length. apply Hs.
  - cbn. intros c Hc. apply in_map_iff in Hc as (x & <- & Hx). rewrite map_length.
    now apply Hs.
  - intros c p Hc Hp. rewrite Es, cb_clear_cmk. now rewrite P.
Qed.

(** CopyFromAudioBlock; [k] is the length of the audio block *)
Theorem C08_copy : forall (A : arith) n m k (self : cbuf A) (block : audio A),
  0 < n -> has_dims n m self -> matrix n k block ->
  exists r, cb_copy_from_audio_block self block = Ok r /\ has_dims n m r /\
    forall c p, c < n -> p < m ->
      point r c p = if p <? k then creal (elem s0 block c p) else point self c p.
Proof.
  intros A n m k self block Hn Hs Hb.
  pose proof (cshaped_eq _ _ _ Hs) as Es. pose proof (shaped_eq _ _ _ s0 Hb) as Eb.
  eexists. split; [rewrite Es at 1; rewrite Eb at 1; now apply cb_copy_cmk|]. split; [apply cshaped_cmk|]. intros c p Hc Hp.
  unfold point at 1, elem at 1, cmk. cbn [cb_data]. rewrite mk_nth, tab_nth by auto.
  unfold point, elem. bcase; auto; lia.
Qed.

(** Operands of different dimensions violate a jassert. *)
Theorem C08_mismatch : forall (A : arith) (self a b : cbuf A),
  cb_num_channels self <> cb_num_channels a \/ cb_num_points self <> cb_num_points a ->
  cb_multiply_from self a b = Undef /\ cb_add_from self a = Undef /\
  cb_multiply_accumulate_from self a b = Undef.
Proof.
  intros A self a b H.
  assert (E : cb_same_dims self a = false).
  { unfold cb_same_dims, cb_num_points in *. apply andb_false_iff.
    destruct H; [left|right]; now apply Nat.eqb_neq. }
  unfold cb_multiply_from, cb_add_from, cb_multiply_accumulate_from. now rewrite E.
Qed.

Example C08_example :
  let a := {| cb_points := 2; cb_data := [zint [1; 2]; zint [3; 4]]%Z |} in
  let b := {| cb_points := 2; cb_data := [zint [5; 6]; zint [7; 8]]%Z |} in
  has_dims 2 2 a /\
  cb_multiply_accumulate_from a a b
  = Ok {| cb_points := 2; cb_data := [zint [6; 14]; zint [24; 36]]%Z |}.
Proof.
  cbv zeta. split; [|reflexivity].
  split; [reflexivity|]. split; [reflexivity|]. intros c [<-|[<-|[]]]; reflexivity.
Qed.

(** ** C09 *)
(** A moved buffer keeps its contents; a copied one is not independent: what is written
    through the copy's pointer is read back from the original (and is not even seen by the
    arithmetic on the copy). *)
Theorem C09_copy_aliases : forall (A : arith) (h0 : @heap A) num_points num_channels (h : @heap A) b,
  h_new h0 num_points num_channels = (h, b) ->
  forall (h1 : @heap A) (c p : nat), c < num_channels -> p < num_points ->
  (* any contents written since construction *)
  length h1 = length h -> (forall s, length (nth s h1 []) = length (nth s h [])) ->
  h_move b = b /\
  forall v, exists (h2 : @heap A) b2 (h3 : @heap A),
    h_copy h1 b = Ok (h2, b2) /\ h_write h2 b2 c p v = Ok h3 /\
    h_read h3 b c p = Ok v /\ h_read h3 b2 c p = Ok v /\
    h_data h3 b2 c p = h_data h1 b c p /\
    exists old, h_read h1 b c p = Ok old /\ h_data h1 b c p = Ok old.
Proof.
  intros A h0 np nc h b Hnew h1 c p Hc Hp Hlen Hst. split; [reflexivity|].
  unfold h_new in Hnew. inversion Hnew; subst h b; clear Hnew.
  assert (Hn : length h1 = length h0 + 1) by (rewrite Hlen, app_length; reflexivity).
  set (k := length h0) in *. set (st := nth k h1 []).
  assert (Hs : length st = np * nc).
  { unfold st. rewrite Hst. unfold k. rewrite app_nth2, Nat.sub_diag by lia. cbn. apply repeat_length. }
  assert (Hoff : c * np + p < np * nc) by nia.
  assert (G1 : get h1 k = Ok st) by (apply get_ok; lia).
  intros v. unfold h_copy. cbn [h_store]. rewrite G1. cbn [bind].
  exists (h1 ++ [st]). eexists.
  exists (upd (h1 ++ [st]) k (upd st (c * np + p) v)).
  assert (G2 : get (h1 ++ [st]) k = Ok st).
  { rewrite get_ok with (d := []) by (rewrite app_length; simpl; lia). rewrite app_nth1 by lia. reflexivity. }
  assert (G3 : get (upd (h1 ++ [st]) k (upd st (c * np + p) v)) k = Ok (upd st (c * np + p) v)).
  { rewrite get_ok with (d := []) by (rewrite upd_length, app_length; simpl; lia).
    rewrite upd_nth_same; auto. rewrite app_length. simpl. lia. }
  split; [reflexivity|].
  unfold h_write, h_read, h_data. cbn [h_channels h_ptrs h_store h_points].
  rewrite !assert_true by now apply Nat.ltb_lt. cbn [bind].
  rewrite !get_tab by auto. cbn [bind]. rewrite G2. cbn [bind].
  rewrite set_ok by lia. cbn [bind]. rewrite set_ok by (rewrite app_length; simpl; lia).
  split; [reflexivity|]. rewrite G3. cbn [bind].
  rewrite get_ok with (d := c0) by (rewrite upd_length; lia).
  rewrite upd_nth_same by lia. split; [reflexivity|]. split; [reflexivity|].
  rewrite G1. cbn [bind]. split.
  - rewrite get_ok with (d := []) by (rewrite upd_length, app_length; simpl; lia).
    rewrite upd_nth_other by lia. rewrite app_nth2 by lia.
    replace (length h1 - length h1) with 0 by lia. reflexivity.
  - exists (nth (c * np + p) st c0). rewrite get_ok with (d := c0) by lia. auto.
Qed.

Example C09_example : exists h b h2 b2 h3,
  h_new (A := Zint) [] 1 1 = (h, b) /\ h_copy h b = Ok (h2, b2) /\
  h_write h2 b2 0 0 (5, 0)%Z = Ok h3 /\
  h_read h b 0 0 = Ok (0, 0)%Z /\ h_read h3 b 0 0 = Ok (5, 0)%Z.
Proof. do 5 eexists. repeat split. Qed.

(** ** C10 *)
Theorem C10_stages_rotate : forall (A : arith) num_points (l : list (@stage_op A)),
  let zero := cb_clear (cb_make num_points 1) in
  let '(a, b, c) := fold_left stage_spec l (zero, zero, zero) in
  exists s, stage_run (st_make num_points) l = Ok s /\
    st_get s kA = Ok a /\ st_get s kB = Ok b /\ st_get s kC = Ok c /\
    exists i j k, st_index s kA = Ok i /\ st_index s kB = Ok j /\ st_index s kC = Ok k /\
      i <> j /\ j <> k /\ i <> k.
Proof.
  intros A np l zero.
  assert (G : forall l (s : stages A) a b c, st_rep s a b c ->
    let '(a', b', c') := fold_left stage_spec l (a, b, c) in
    exists s', stage_run s l = Ok s' /\ st_rep s' a' b' c').
  { clear. induction l as [|o t IH]; intros s a b c H; cbn [fold_left stage_run]; eauto.
    destruct o as [|[| |] v|]; cbn [stage_step stage_spec bind].
    - apply (IH (st_promote s) c a b). now apply st_promote_rep.
    - destruct (st_put_A s a b c v H) as (s' & -> & H'). cbn [bind]. now apply IH.
    - destruct (st_put_B s a b c v H) as (s' & -> & H'). cbn [bind]. now apply IH.
    - destruct (st_put_C s a b c v H) as (s' & -> & H'). cbn [bind]. now apply IH.
    - apply (IH (st_clear s)). now apply st_clear_rep. }
  specialize (G l (st_make np) zero zero zero).
  destruct (fold_left stage_spec l (zero, zero, zero)) as [[a b] c].
  destruct G as (s & Hrun & Hrep).
  { unfold zero. rewrite cb_make_cmk, cb_clear_cmk. apply st_make_rep. }
  exists s. split; auto. split; [eapply st_get_A; eauto|]. split; [eapply st_get_B; eauto|].
  split; [eapply st_get_C; eauto|].
  unfold st_index. destruct Hrep as [[-> _]|[[-> _]|[-> _]]]; do 3 eexists; repeat split; discriminate.
Qed.

Example C10_example : exists s v,
  stage_run (A := Zint) (st_make 1) [WriteStage kA v; Promote; Promote; Promote; Promote] = Ok s /\
  st_get s kB = Ok v /\ st_get s kA <> Ok v.
Proof.
  eexists. exists {| cb_points := 1; cb_data := [zint [7%Z]] |}. repeat split. discriminate.
Qed.

(** ** C11 *)
Definition fdl_op_dims {A : arith} (n m : nat) (o : @fdl_op A) : Prop :=
  match o with Push b => has_dims n m b | Rewrite b => has_dims n m b | ClearLine => True end.

Theorem C11_delay_line : forall (A : arith) num_channels num_blocks num_points (l : list (@fdl_op A)),
  0 < num_blocks -> (forall o, In o l -> fdl_op_dims num_channels num_points o) ->
  let zero := cb_clear (cb_make num_points num_channels) in
  let written := fold_left (fun h o => fdl_spec h o zero) l [] in
  exists f, fdl_run (fdl_make num_channels num_blocks num_points) l = Ok f /\
    forall i, i < num_blocks -> fdl_get f i = Ok (nth i written zero).
Proof.
  intros A n k m l Hk Hd zero.
  assert (Ez : zero = cmk n m (fun _ _ => c0)).
  { unfold zero. now rewrite cb_make_cmk, cb_clear_cmk. }
  assert (G : forall l (f : fdl A) h, (forall o, In o l -> fdl_op_dims n m o) ->
    (forall b, In b h -> has_dims n m b) ->
    fdl_rep k f (fun i => nth i h zero) ->
    exists f', fdl_run f l = Ok f' /\
      fdl_rep k f' (fun i => nth i (fold_left (fun h o => fdl_spec h o zero) l h) zero)).
  { clear Hd l. induction l as [|o t IH]; intros f h Hd Hh H; cbn [fold_left fdl_run]; eauto.
    assert (Ht : forall o, In o t -> fdl_op_dims n m o) by (intros; apply Hd; now right).
    pose proof (Hd o (or_introl eq_refl)) as Ho.
    destruct o as [b|b|]; cbn [fdl_step fdl_spec].
    - destruct (fdl_next_rep k f _ H) as (f1 & -> & H1). cbn [bind].
      destruct (fdl_put_rep k f1 _ b H1) as (f2 & -> & H2). cbn [bind].
      apply IH; auto.
      + intros x [<-|Hx]; auto.
      + eapply fdl_rep_ext; [exact H2|]. intros [|i] Hi; reflexivity.
    - destruct (fdl_put_rep k f _ b H) as (f2 & -> & H2). cbn [bind].
      apply IH; auto.
      + intros x [<-|Hx]; auto. apply Hh. destruct h; [easy|now right].
      + eapply fdl_rep_ext; [exact H2|]. intros [|i] Hi; [reflexivity|]. cbn.
        destruct h; auto. cbn. now destruct i.
    - cbn [bind]. apply IH; auto; [easy|].
      eapply fdl_rep_ext; [apply fdl_clear_rep; exact H|]. intros i Hi. cbn beta.
      replace (nth i [] zero) with zero by now destruct i.
      destruct (nth_in_or_default i h zero) as [Hin| ->].
      + rewrite (cb_clear_shaped n m); [now rewrite Ez|]. now apply Hh.
      + rewrite Ez. apply cb_clear_cmk. }
  destruct (G l (fdl_make n k m) []) as (f & Hf & Hrep); auto.
  - easy.
  - eapply fdl_rep_ext; [now apply fdl_make_rep|]. intros i Hi. rewrite Ez. now destruct i.
  - exists f. split; auto. intros i Hi. now apply (fdl_get_rep k f _ i Hrep).
Qed.

Definition ex_block (z : Z) : cbuf Zint := {| cb_points := 1; cb_data := [zint [z]] |}.
Example C11_example :
  (f <- fdl_run (fdl_make 1 3 1)
    [Push (ex_block 7); Push (ex_block 7); Push (ex_block 8); Rewrite (ex_block 9); Push (ex_block 7)] ;;
   fdl_get f 1) = Ok (ex_block 9) /\ fdl_op_dims 1 1 (Push (ex_block 9)).
Proof.
  split; [vm_compute; reflexivity|].
  split; [reflexivity|]. split; [reflexivity|]. intros c [<-|[]]. reflexivity.
Qed.

(** ** C12 *)
Theorem C12_ring_windows : forall (A : arith) (ring : list (sample A)) N head delay adv,
  length ring = N -> 0 < N ->
  exists sp, cbuf_next N head delay adv = Ok (if adv then (head + delay) mod N else head, sp) /\
    cbuf_advance N head delay = Ok ((head + delay) mod N, sp) /\
    proper_split N sp /\ sb_total sp = N /\
    read_split sp ring = tab N (fun i => nth ((head + delay + i) mod N) ring s0).
Proof.
  intros A ring N head delay adv Hl HN.
  exists (ring_split N ((head + delay) mod N)).
  rewrite cbuf_next_ok, cbuf_advance_ok by auto. split; [reflexivity|]. split; [reflexivity|].
  set (p := (head + delay) mod N). assert (Hp : p < N) by (apply Nat.mod_upper_bound; lia).
  split; [now apply ring_split_ok|].
  split; [unfold sb_total, ring_split; cbn [sb_first sb_wrapped v_len]; lia|].
  unfold read_split, ring_split. cbn [sb_first sb_wrapped v_len v_start]. rewrite skipn_O.
  apply list_tab with (d := s0).
  - rewrite app_length, !firstn_length, skipn_length. lia.
  - intros i Hi. rewrite <- Nat.add_mod_idemp_l by lia. fold p. rewrite mod_ring by auto.
    rewrite nth_app', firstn_length, skipn_length, !nth_firstn', nth_skipn', Hl.
    replace (Nat.min (N - p) (N - p)) with (N - p) by lia.
    bcase; auto; try lia. f_equal. lia.
Qed.

(** an empty ring divides by zero *)
Theorem C12_empty_ring : forall head delay adv, cbuf_next 0 head delay adv = Undef.
Proof. reflexivity. Qed.

Example C12_example :
  cbuf_next 5 3 4 true = Ok (2, {| sb_first := {| v_start := 2; v_len := 3 |};
                                   sb_wrapped := {| v_start := 0; v_len := 2 |} |}).
Proof. reflexivity. Qed.

(** ** C13 *)
(** CopyFrom ([g x y = y]) and AddFrom ([g x y = x + y]) *)
Theorem C13_split_write : forall (A : arith) (g : sample A -> sample A -> sample A) s n m k
    (buf block : audio A),
  0 < n -> matrix n m buf -> matrix n k block -> proper_split m s -> k <= sb_total s ->
  exists r, sb_apply g s buf block = Ok r /\ matrix n m r /\
    forall c, c < n ->
      (let old := read_split s (nth c buf []) in
       read_split s (nth c r []) = zipw g (firstn k old) (nth c block []) ++ skipn k old) /\
      (forall i, i < m -> ~ in_view (sb_first s) i -> ~ in_view (sb_wrapped s) i ->
        elem s0 r c i = elem s0 buf c i).
Proof.
  intros A g s n m k buf block Hn Hbuf Hblk Hs Hk.
  eexists. split.
  { rewrite (shaped_eq _ _ _ s0 Hbuf) at 1. rewrite (shaped_eq _ _ _ s0 Hblk) at 1.
    now apply sb_apply_mk. } split; [apply shaped_mk|].
  intros c Hc. rewrite mk_nth by auto.
  assert (Lbuf : length (nth c buf []) = m) by (apply Hbuf, nth_In; destruct Hbuf; lia).
  assert (Lblk : length (nth c block []) = k) by (apply Hblk, nth_In; destruct Hblk; lia).
  destruct s as [[a1 l1] [a2 l2]]. destruct Hs as (H1 & H2 & H3).
  unfold sb_total, in_view, read_split in *. cbn [sb_first sb_wrapped v_start v_len] in *.
  set (B := nth c buf []) in *. set (K := nth c block []) in *. split.
  - cbv zeta.
    assert (Lold : length (firstn l1 (skipn a1 B) ++ firstn l2 (skipn a2 B)) = l1 + l2).
    { rewrite app_length, !firstn_length, !skipn_length. lia. }
    set (old := firstn l1 (skipn a1 B) ++ firstn l2 (skipn a2 B)) in *.
    apply list_ext with (d := s0).
    + rewrite !app_length, zipw_length, !firstn_length, !skipn_length, tab_length, Lold, Lblk. lia.
    + rewrite app_length, !firstn_length, !skipn_length, tab_length. intros i Hi.
      rewrite !nth_app', zipw_length, !firstn_length, skipn_length, tab_length, Lold, Lblk.
      replace (Nat.min l1 (m - a1)) with l1 by lia.
      replace (Nat.min (Nat.min k (l1 + l2)) k) with k by lia.
      assert (Hold : forall j, j < l1 + l2 ->
                nth j old s0 = if j <? l1 then nth (a1 + j) B s0 else nth (a2 + (j - l1)) B s0).
      { intros j Hj. unfold old. rewrite nth_app', firstn_length, skipn_length, !nth_firstn', !nth_skipn'.
        replace (Nat.min l1 (length B - a1)) with l1 by lia. bcase; auto; lia. }
      rewrite !nth_firstn', !nth_skipn'.
      destruct (Nat.ltb_spec i k) as [Hik|Hik].
      * rewrite zipw_nth with (d1 := s0) (d2 := s0) by (rewrite ?firstn_length; lia).
        rewrite nth_firstn'. destruct (Nat.ltb_spec i k); [|lia]. rewrite Hold by lia.
        destruct (Nat.ltb_spec i l1).
        -- rewrite tab_nth by lia. bcase; try lia; f_equal; f_equal; lia.
        -- destruct (Nat.ltb_spec (i - l1) l2); [|lia]. rewrite tab_nth by lia.
           bcase; try lia; f_equal; f_equal; lia.
      * replace (k + (i - k)) with i by lia. rewrite Hold by lia.
        destruct (Nat.ltb_spec i l1).
        -- rewrite tab_nth by lia. bcase; auto; lia.
        -- destruct (Nat.ltb_spec (i - l1) l2); [|lia]. rewrite tab_nth by lia.
           bcase; auto; lia.
  - intros i Hi N1 N2. unfold elem. rewrite mk_nth, tab_nth by auto. bcase; auto; lia.
Qed.

(** CopyTo and AddTo *)
Theorem C13_split_read : forall (A : arith) (g : sample A -> sample A -> sample A) s n m k
    (buf block : audio A),
  0 < n -> matrix n m buf -> matrix n k block -> proper_split m s ->
  exists r, sb_apply_to g s buf block = Ok r /\ matrix n k r /\
    forall c, c < n ->
      let src := firstn k (read_split s (nth c buf [])) in
      nth c r [] = zipw g (firstn (length src) (nth c block [])) src
                   ++ skipn (length src) (nth c block []).
Proof.
  intros A g s n m k buf block Hn Hbuf Hblk Hs.
  eexists. split.
  { rewrite (shaped_eq _ _ _ s0 Hbuf) at 1. rewrite (shaped_eq _ _ _ s0 Hblk) at 1.
    now apply sb_apply_to_mk. } split; [apply shaped_mk|].
  intros c Hc. cbv zeta. rewrite mk_nth by auto.
  assert (Lbuf : length (nth c buf []) = m) by (apply Hbuf, nth_In; destruct Hbuf; lia).
  assert (Lblk : length (nth c block []) = k) by (apply Hblk, nth_In; destruct Hblk; lia).
  destruct s as [[a1 l1] [a2 l2]]. destruct Hs as (H1 & H2 & H3).
  unfold read_split in *. cbn [sb_first sb_wrapped v_start v_len] in *.
  set (B := nth c buf []) in *. set (K := nth c block []) in *.
  assert (Lold : length (firstn l1 (skipn a1 B) ++ firstn l2 (skipn a2 B)) = l1 + l2).
  { rewrite app_length, !firstn_length, !skipn_length. lia. }
  assert (Hold : forall j, j < l1 + l2 -> nth j (firstn l1 (skipn a1 B) ++ firstn l2 (skipn a2 B)) s0
            = if j <? l1 then nth (a1 + j) B s0 else nth (a2 + (j - l1)) B s0).
  { intros j Hj. rewrite nth_app', firstn_length, skipn_length, !nth_firstn', !nth_skipn'.
    replace (Nat.min l1 (length B - a1)) with l1 by lia. bcase; auto; lia. }
  set (old := firstn l1 (skipn a1 B) ++ firstn l2 (skipn a2 B)) in *.
  rewrite !firstn_length, Lold. symmetry. apply list_tab with (d := s0).
  - rewrite app_length, zipw_length, !firstn_length, skipn_length. lia.
  - intros i Hi. rewrite nth_app', zipw_length, !firstn_length, Lold, Lblk.
    rewrite nth_skipn'.
    destruct (Nat.ltb_spec i (l1 + l2)) as [Hl|Hl].
    + destruct (Nat.ltb_spec i (Nat.min (Nat.min (Nat.min k (l1 + l2)) k) (Nat.min k (l1 + l2)))); [|lia].
      rewrite zipw_nth with (d1 := s0) (d2 := s0) by (rewrite !firstn_length; lia).
      rewrite !nth_firstn'.
      replace (i <? Nat.min k (l1 + l2)) with true by (symmetry; apply Nat.ltb_lt; lia).
      replace (i <? k) with true by (symmetry; apply Nat.ltb_lt; lia).
      rewrite Hold by lia. bcase; auto; lia.
    + bcase; try lia. f_equal. lia.
Qed.

(** The four methods of the class *)
Theorem C13_copy_from : forall (A : arith) s n m k (buf block : audio A),
  0 < n -> matrix n m buf -> matrix n k block -> proper_split m s -> k <= sb_total s ->
  exists r, sb_copy_from s buf block = Ok r /\ matrix n m r /\
    forall c, c < n ->
      read_split s (nth c r []) = nth c block [] ++ skipn k (read_split s (nth c buf [])) /\
      (forall i, i < m -> ~ in_view (sb_first s) i -> ~ in_view (sb_wrapped s) i ->
        elem s0 r c i = elem s0 buf c i).
Proof.
  intros A s n m k buf block Hn Hbuf Hblk Hs Hk.
  destruct (C13_split_write A f_copy s n m k buf block) as (r & E & Hr & H); auto.
  exists r. split; [exact E|]. split; auto. intros c Hc. destruct (H c Hc) as (H1 & H2).
  split; auto. cbv zeta in H1. rewrite H1. f_equal.
  assert (Lblk : length (nth c block []) = k) by (apply Hblk, nth_In; destruct Hblk; lia).
  assert (Lbuf : length (nth c buf []) = m) by (apply Hbuf, nth_In; destruct Hbuf; lia).
  destruct Hs as (S1 & S2 & _). unfold sb_total in Hk.
  assert (Ll : length (firstn k (read_split s (nth c buf []))) = k).
  { unfold read_split. rewrite firstn_length, app_length, !firstn_length, !skipn_length. lia. }
  apply list_ext with (d := s0); rewrite zipw_length, Ll, Lblk; [lia|].
  intros i Hi. now rewrite zipw_nth with (d1 := s0) (d2 := s0) by lia.
Qed.

Theorem C13_add_from : forall (A : arith) s n m k (buf block : audio A),
  0 < n -> matrix n m buf -> matrix n k block -> proper_split m s -> k <= sb_total s ->
  exists r, sb_add_from s buf block = Ok r /\ matrix n m r /\
    forall c, c < n ->
      read_split s (nth c r [])
      = (let old := read_split s (nth c buf []) in
         zipw sadd (firstn k old) (nth c block []) ++ skipn k old) /\
      (forall i, i < m -> ~ in_view (sb_first s) i -> ~ in_view (sb_wrapped s) i ->
        elem s0 r c i = elem s0 buf c i).
Proof. intros A s n m k buf block. apply C13_split_write. Qed.

Theorem C13_copy_to : forall (A : arith) s n m k (buf block : audio A),
  0 < n -> matrix n m buf -> matrix n k block -> proper_split m s ->
  exists r, sb_copy_to s buf block = Ok r /\ matrix n k r /\
    forall c, c < n ->
      nth c r [] = firstn k (read_split s (nth c buf [])) ++ skipn (sb_total s) (nth c block []).
Proof.
  intros A s n m k buf block Hn Hbuf Hblk Hs.
  destruct (C13_split_read A f_copy s n m k buf block) as (r & E & Hr & H); auto.
  exists r. split; [exact E|]. split; auto. intros c Hc. rewrite (H c Hc).
  assert (Lblk : length (nth c block []) = k) by (apply Hblk, nth_In; destruct Hblk; lia).
  assert (Lbuf : length (nth c buf []) = m) by (apply Hbuf, nth_In; destruct Hbuf; lia).
  destruct Hs as (S1 & S2 & _).
  assert (Ll : length (read_split s (nth c buf [])) = sb_total s).
  { unfold read_split, sb_total. rewrite app_length, !firstn_length, !skipn_length. lia. }
  set (src := read_split s (nth c buf [])) in *. rewrite firstn_length, Ll. f_equal.
  - apply list_ext with (d := s0); rewrite zipw_length, !firstn_length; [lia|].
    intros i Hi. now rewrite zipw_nth with (d1 := s0) (d2 := s0) by (rewrite firstn_length; lia).
  - destruct (Nat.le_ge_cases k (sb_total s)).
    + rewrite Nat.min_l by lia. rewrite !skipn_all2 by lia. reflexivity.
    + now rewrite Nat.min_r by lia.
Qed.

Theorem C13_add_to : forall (A : arith) s n m k (buf block : audio A),
  0 < n -> matrix n m buf -> matrix n k block -> proper_split m s ->
  exists r, sb_add_to s buf block = Ok r /\ matrix n k r /\
    forall c, c < n ->
      nth c r [] = zipw sadd (firstn (sb_total s) (nth c block [])) (firstn k (read_split s (nth c buf [])))
                   ++ skipn (sb_total s) (nth c block []).
Proof.
  intros A s n m k buf block Hn Hbuf Hblk Hs.
  destruct (C13_split_read A sadd s n m k buf block) as (r & E & Hr & H); auto.
  exists r. split; [exact E|]. split; auto. intros c Hc. rewrite (H c Hc).
  assert (Lblk : length (nth c block []) = k) by (apply Hblk, nth_In; destruct Hblk; lia).
  assert (Lbuf : length (nth c buf []) = m) by (apply Hbuf, nth_In; destruct Hbuf; lia).
  destruct Hs as (S1 & S2 & _).
  assert (Ll : length (read_split s (nth c buf [])) = sb_total s).
  { unfold read_split, sb_total. rewrite app_length, !firstn_length, !skipn_length. lia. }
  set (src := read_split s (nth c buf [])) in *. rewrite firstn_length, Ll.
  destruct (Nat.le_ge_cases k (sb_total s)).
  - rewrite Nat.min_l by lia. rewrite !skipn_all2 by lia. do 2 f_equal.
    rewrite !firstn_all2 by lia. reflexivity.
  - now rewrite Nat.min_r by lia.
Qed.

(** Clear *)
Theorem C13_split_clear : forall (A : arith) s n m (buf : audio A),
  matrix n m buf -> proper_split m s ->
  exists r, sb_clear s buf = Ok r /\ matrix n m r /\
    forall c i, c < n -> i < m ->
      ((in_view (sb_first s) i \/ in_view (sb_wrapped s) i) -> elem s0 r c i = s0) /\
      (~ in_view (sb_first s) i -> ~ in_view (sb_wrapped s) i -> elem s0 r c i = elem s0 buf c i).
Proof.
  intros A s n m buf Hbuf Hs. 
  eexists. split; [rewrite (shaped_eq _ _ _ s0 Hbuf) at 1; now apply sb_clear_mk|]. split; [apply shaped_mk|].
  intros c i Hc Hi. unfold elem. rewrite mk_nth, tab_nth by auto. unfold in_view.
  split.
  - intros [H|H]; bcase; auto; lia.
  - intros N1 N2. bcase; auto; lia.
Qed.

(** GetSubBlock (n): the first n samples *)
Theorem C13_sub_block : forall (A : arith) s m k (chan : list (sample A)),
  length chan = m -> proper_split m s -> k <= sb_total s ->
  exists t, sb_sub_block s k = Ok t /\ proper_split m t /\ sb_total t = k /\
    read_split t chan = firstn k (read_split s chan).
Proof.
  intros A s m k chan Hl Hs Hk.
  destruct (sb_sub_block_ok s k Hk) as (t & Ht & E1 & E2 & E3 & E4 & E5 & E6).
  exists t. split; auto. unfold proper_split, sb_total, read_split in *.
  destruct Hs as (H1 & H2 & H3).
  split; [|split].
  - destruct (Nat.eq_dec (v_len (sb_first t)) 0) as [Z1|Z1],
             (Nat.eq_dec (v_len (sb_wrapped t)) 0) as [Z2|Z2];
      rewrite ?E5, ?E6, ?E3, ?E4 by lia; lia.
  - lia.
  - rewrite firstn_app, firstn_firstn, firstn_length, skipn_length, Hl.
    replace (Nat.min (v_len (sb_first s)) (m - v_start (sb_first s)))
      with (v_len (sb_first s)) by lia.
    rewrite E1. f_equal.
    + destruct (Nat.eq_dec (v_len (sb_first t)) 0) as [Z1|Z1].
      * rewrite <- E1, Z1. reflexivity.
      * rewrite E3 by lia. reflexivity.
    + rewrite firstn_firstn. destruct (Nat.eq_dec (v_len (sb_wrapped t)) 0) as [Z2|Z2].
      * rewrite Z2. cbn [firstn]. rewrite Nat.min_l by lia.
        replace (k - v_len (sb_first s)) with 0 by lia. reflexivity.
      * rewrite E4 by lia. f_equal. lia.
Qed.

Example C13_example :
  let s := {| sb_first := {| v_start := 3; v_len := 2 |}; sb_wrapped := {| v_start := 0; v_len := 3 |} |} in
  let buf := [[10; 11; 12; 13; 14]]%Z : audio Zint in
  proper_split 5 s /\ sb_apply (@sadd Zint) s buf [[1; 2; 3; 4]]%Z = Ok [[13; 15; 12; 14; 16]]%Z.
Proof. cbv zeta. split; [vm_compute; auto|reflexivity]. Qed.

Print Assumptions C08_pointwise.
Print Assumptions C08_copy.
Print Assumptions C09_copy_aliases.
Print Assumptions C10_stages_rotate.
Print Assumptions C11_delay_line.
Print Assumptions C12_ring_windows.
Print Assumptions C13_split_write.
Print Assumptions C13_split_read.
Print Assumptions C13_split_clear.
Print Assumptions C13_sub_block.
