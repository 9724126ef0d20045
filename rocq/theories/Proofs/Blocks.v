(** * Blocks of samples: closed forms of the JUCE block operations, of split blocks and of
      circular buffers *)
From Verif.Model Require Import Base Arith Juce SplitBlock CircularBuffer.
From Verif.Proofs Require Import Lists FFTProof.

(** the array of arrays with elements [f c i] *)
Definition mk {T} (n m : nat) (f : nat -> nat -> T) : list (list T) :=
  tab n (fun c => tab m (fun i => f c i)).

Lemma mk_length {T} n m (f : nat -> nat -> T) : length (mk n m f) = n.
Proof. apply tab_length. Qed.

Lemma mk_ext {T} n m (f g : nat -> nat -> T) :
  (forall c i, c < n -> i < m -> f c i = g c i) -> mk n m f = mk n m g.
Proof. intros H. apply tab_ext. intros c Hc. apply tab_ext. intros i Hi. auto. Qed.

Lemma mk_inv {T} n m (f g : nat -> nat -> T) :
  mk n m f = mk n m g -> forall c i, c < n -> i < m -> f c i = g c i.
Proof.
  intros H c i Hc Hi. pose proof (tab_eq_inv _ _ _ H c Hc) as E. cbv beta in E.
  exact (tab_eq_inv _ _ _ E i Hi).
Qed.

Lemma mk_nth {T} n m (f : nat -> nat -> T) c : c < n -> nth c (mk n m f) [] = tab m (f c).
Proof. intros. unfold mk. now rewrite tab_nth. Qed.

Lemma mk_map {T U} n m (f : nat -> nat -> T) (g : T -> U) :
  map (map g) (mk n m f) = mk n m (fun c i => g (f c i)).
Proof. unfold mk. rewrite tab_map. apply tab_ext. intros. apply tab_map. Qed.

(** an audio buffer of [n] channels of [m] samples *)
Definition shaped {T} (n m : nat) (b : list (list T)) : Prop :=
  length b = n /\ forall c, In c b -> length c = m.

Lemma shaped_mk {T} n m (f : nat -> nat -> T) : shaped n m (mk n m f).
Proof.
  split; [apply mk_length|]. intros c Hc. unfold mk in Hc. unfold tab at 1 in Hc.
  apply in_map_iff in Hc as (i & <- & _). apply tab_length.
Qed.

Lemma shaped_eq {T} n m (b : list (list T)) d :
  shaped n m b -> b = mk n m (fun c i => nth i (nth c b []) d).
Proof.
  intros [Hn Hm]. unfold mk. apply list_tab with (d := []); auto.
  intros c Hc. apply list_tab with (d := d); auto.
  apply Hm, nth_In. lia.
Qed.

Lemma zipw_mk {T U V} (f : T -> U -> V) n m g h :
  zipw (zipw f) (mk n m g) (mk n m h) = mk n m (fun c i => f (g c i) (h c i)).
Proof.
  unfold mk. rewrite zipw_tab. apply tab_ext. intros. apply zipw_tab.
Qed.

Section Blocks.
  Context {A : arith}.
  Notation S := (sample A).

  Lemma num_samples_mk n m (f : nat -> nat -> S) : 0 < n -> num_samples (mk n m f) = m.
  Proof. destruct n; [lia|]. intros _. unfold mk. rewrite tab_S. simpl. apply tab_length. Qed.

  Lemma chan_sub_tab m (f : nat -> S) off len :
    off + len <= m -> chan_sub off len (tab m f) = Ok (tab len (fun i => f (off + i))).
  Proof.
    intros H. unfold chan_sub. rewrite tab_length.
    destruct (Nat.leb_spec (off + len) m); [|lia].
    rewrite tab_skipn, tab_firstn. f_equal. f_equal. lia.
  Qed.

  Lemma blk_sub_mk n m (f : nat -> nat -> S) off len :
    0 < n -> off < m -> off + len <= m ->
    blk_sub (mk n m f) off len = Ok (mk n len (fun c i => f c (off + i))).
  Proof.
    intros Hn Ho Hl. unfold blk_sub. rewrite num_samples_mk by auto.
    rewrite assert_true by now apply Nat.ltb_lt. cbn [bind]. unfold mk.
    apply mapM_tab. intros. now apply chan_sub_tab.
  Qed.

  Lemma view_sub_ok v off len :
    off < v_len v -> off + len <= v_len v ->
    view_sub v off len = Ok {| v_start := v_start v + off; v_len := len |}.
  Proof.
    intros. unfold view_sub. rewrite !assert_true; [reflexivity|now apply Nat.leb_le|now apply Nat.ltb_lt].
  Qed.

  Lemma view_read_mk n m (f : nat -> nat -> S) v :
    v_start v + v_len v <= m ->
    view_read v (mk n m f) = Ok (mk n (v_len v) (fun c i => f c (v_start v + i))).
  Proof. intros. unfold view_read, mk. apply mapM_tab. intros. now apply chan_sub_tab. Qed.

  Lemma chan_apply_tab (g : S -> S -> S) start k h m (f : nat -> S) :
    start + k <= m ->
    chan_apply g start (tab k h) (tab m f)
    = Ok (tab m (fun i => if (start <=? i) && (i <? start + k) then g (f i) (h (i - start)) else f i)).
  Proof.
    intros H. unfold chan_apply. rewrite !tab_length.
    destruct (Nat.leb_spec (start + k) m); [|lia]. f_equal.
    rewrite tab_firstn, !tab_skipn, tab_firstn, !Nat.min_l by lia. rewrite zipw_tab.
    replace m with (start + (k + (m - (start + k)))) at 2 by lia.
    rewrite !tab_app. f_equal; [|f_equal]; apply tab_ext; intros i Hi.
    - bcase; auto; lia.
    - bcase; try lia. do 2 f_equal. lia.
    - bcase; try lia. f_equal. lia.
  Qed.

  Lemma blk_apply_mk (g : S -> S -> S) v n m f n2 k h :
    v_start v + Nat.min (v_len v) k <= m -> n2 = n ->
    blk_apply g v (mk n m f) (mk n2 k h)
    = Ok (mk n m (fun c i => if (v_start v <=? i) && (i <? v_start v + Nat.min (v_len v) k)
                             then g (f c i) (h c (i - v_start v)) else f c i)).
  Proof.
    intros H ->. revert f h. unfold mk. induction n; intros f h; [reflexivity|].
    rewrite !tab_S. cbn [blk_apply]. rewrite tab_firstn, chan_apply_tab by auto. cbn [bind].
    rewrite (IHn (fun c => f (Datatypes.S c)) (fun c => h (Datatypes.S c))). reflexivity.
  Qed.

  Lemma whole_mk n m (f : nat -> nat -> S) : 0 < n -> whole (mk n m f) = {| v_start := 0; v_len := m |}.
  Proof. intros. unfold whole. now rewrite num_samples_mk. Qed.

  Lemma audio_clear_mk n m (f : nat -> nat -> S) : audio_clear (mk n m f) = mk n m (fun _ _ => s0).
  Proof. unfold audio_clear. now rewrite mk_map. Qed.

  Lemma zeros_mk n m : @zeros A n m = mk n m (fun _ _ => s0).
  Proof. unfold zeros, mk. rewrite repeat_tab. apply tab_ext. intros. apply repeat_tab. Qed.

  (** ** split blocks *)
  (** windows inside a buffer of [m] samples, not overlapping *)
  Definition split_ok (m : nat) (s : split) : Prop :=
    v_start (sb_first s) + v_len (sb_first s) <= m /\
    v_start (sb_wrapped s) + v_len (sb_wrapped s) <= m /\
    (v_start (sb_first s) + v_len (sb_first s) <= v_start (sb_wrapped s) \/
     v_start (sb_wrapped s) + v_len (sb_wrapped s) <= v_start (sb_first s)).

  Notation s1 s := (v_start (sb_first s)). Notation l1 s := (v_len (sb_first s)).
  Notation s2 s := (v_start (sb_wrapped s)). Notation l2 s := (v_len (sb_wrapped s)).

  Lemma blk_clear_mk v n m (f : nat -> nat -> S) :
    v_start v + v_len v <= m ->
    blk_clear v (mk n m f)
    = Ok (mk n m (fun c i => if (v_start v <=? i) && (i <? v_start v + v_len v) then s0 else f c i)).
  Proof.
    intros H. unfold blk_clear, blk_copy_from.
    replace (map (fun _ => repeat s0 (v_len v)) (mk n m f)) with (mk n (v_len v) (fun _ _ => @s0 A)).
    - rewrite blk_apply_mk by (auto; lia). rewrite Nat.min_id. reflexivity.
    - unfold mk. rewrite tab_map. apply tab_ext. intros. symmetry. apply repeat_tab.
  Qed.

  Lemma sb_apply_mk (g : S -> S -> S) s n m f k h :
    0 < n -> split_ok m s -> k <= sb_total s ->
    sb_apply g s (mk n m f) (mk n k h)
    = Ok (mk n m (fun c i =>
        if (s1 s <=? i) && (i <? s1 s + Nat.min k (l1 s)) then g (f c i) (h c (i - s1 s))
        else if (s2 s <=? i) && (i <? s2 s + (k - l1 s)) then g (f c i) (h c (l1 s + (i - s2 s)))
        else f c i)).
  Proof.
    intros Hn (H1 & H2 & H3) Hk. unfold sb_apply, sb_total in *. rewrite num_samples_mk by auto. cbv zeta.
    set (a := Nat.min k (l1 s)).
    assert (E1 : (if 0 <? a then sub <- blk_sub (mk n k h) 0 a ;; blk_apply g (sb_first s) (mk n m f) sub
                  else Ok (mk n m f))
            = Ok (mk n m (fun c i => if (s1 s <=? i) && (i <? s1 s + a)
                                     then g (f c i) (h c (i - s1 s)) else f c i))).
    { destruct (Nat.ltb_spec 0 a).
      - rewrite blk_sub_mk by (auto; unfold a in *; lia). cbn [bind].
        rewrite blk_apply_mk by (auto; unfold a in *; lia).
        f_equal. apply mk_ext. intros c i Hc Hi. rewrite Nat.min_r by (unfold a; lia). reflexivity.
      - f_equal. apply mk_ext. intros c i Hc Hi. bcase; auto; lia. }
    eapply bind_eq; [exact E1|]. cbv beta. replace (k - a) with (k - l1 s) by (unfold a; lia).
    destruct (Nat.ltb_spec 0 (k - l1 s)).
    - rewrite blk_sub_mk by (auto; unfold a in *; lia). cbn [bind].
      rewrite blk_apply_mk by (auto; unfold a in *; lia). f_equal. apply mk_ext. intros c i Hc Hi.
      rewrite Nat.min_r by lia. replace a with (l1 s) by (unfold a; lia).
      bcase; auto; try lia.
    - f_equal. apply mk_ext. intros c i Hc Hi. bcase; auto; lia.
  Qed.

  Lemma sb_apply_to_mk (g : S -> S -> S) s n m f k h :
    0 < n -> split_ok m s ->
    sb_apply_to g s (mk n m f) (mk n k h)
    = Ok (mk n k (fun c i =>
        if i <? l1 s then g (h c i) (f c (s1 s + i))
        else if i <? l1 s + l2 s then g (h c i) (f c (s2 s + (i - l1 s)))
        else h c i)).
  Proof.
    intros Hn (H1 & H2 & H3). unfold sb_apply_to. rewrite num_samples_mk by auto. cbv zeta.
    rewrite view_read_mk by auto. cbn [bind].
    rewrite whole_mk by auto. rewrite blk_apply_mk by (cbn [v_start v_len]; auto; lia).
    cbn [bind v_start v_len]. rewrite Nat.add_0_l.
    destruct (Nat.ltb_spec (l1 s) k) as [Hk|Hk]; cbn [andb].
    - destruct (Nat.ltb_spec 0 (l2 s)).
      + rewrite view_sub_ok by (cbn [v_len]; lia). cbn [bind v_start v_len]. rewrite Nat.add_0_l.
        rewrite view_read_mk by auto. cbn [bind].
        rewrite blk_apply_mk by (cbn [v_start v_len]; auto; lia). cbn [v_start v_len].
        f_equal. apply mk_ext. intros c i Hc Hi. rewrite Nat.sub_0_r.
        bcase; auto; try lia.
      + f_equal. apply mk_ext. intros c i Hc Hi. rewrite Nat.sub_0_r. bcase; auto; lia.
    - f_equal. apply mk_ext. intros c i Hc Hi. rewrite Nat.sub_0_r. bcase; auto; lia.
  Qed.

  Lemma sb_clear_mk s n m (f : nat -> nat -> S) :
    split_ok m s ->
    sb_clear s (mk n m f)
    = Ok (mk n m (fun c i => if ((s1 s <=? i) && (i <? s1 s + l1 s)) || ((s2 s <=? i) && (i <? s2 s + l2 s))
                             then s0 else f c i)).
  Proof.
    intros (H1 & H2 & H3). unfold sb_clear.
    assert (E1 : (if 0 <? l1 s then blk_clear (sb_first s) (mk n m f) else Ok (mk n m f))
            = Ok (mk n m (fun c i => if (s1 s <=? i) && (i <? s1 s + l1 s) then s0 else f c i))).
    { destruct (Nat.ltb_spec 0 (l1 s)).
      - now rewrite blk_clear_mk.
      - f_equal. apply mk_ext. intros. bcase; auto; lia. }
    eapply bind_eq; [exact E1|]. cbv beta. destruct (Nat.ltb_spec 0 (l2 s)).
    - rewrite blk_clear_mk by auto. f_equal. apply mk_ext. intros. bcase; auto; lia.
    - f_equal. apply mk_ext. intros. bcase; auto; lia.
  Qed.

  Lemma sb_sub_block_ok s n :
    n <= sb_total s ->
    exists t, sb_sub_block s n = Ok t /\
      l1 t = Nat.min n (l1 s) /\ l2 t = n - l1 t /\
      (0 < l1 t -> s1 t = s1 s) /\ (0 < l2 t -> s2 t = s2 s) /\
      (l1 t = 0 -> s1 t = 0) /\ (l2 t = 0 -> s2 t = 0).
  Proof.
    intros H. unfold sb_sub_block, sb_total in *.
    rewrite assert_true by now apply Nat.leb_le. cbn [bind].
    set (a := Nat.min n (l1 s)).
    destruct (Nat.ltb_spec 0 a).
    - rewrite view_sub_ok by (unfold a in *; lia). cbn [bind].
      destruct (Nat.ltb_spec 0 (n - a)).
      + rewrite view_sub_ok by (unfold a in *; lia). cbn [bind]. eexists. split; [reflexivity|].
        cbn [sb_first sb_wrapped v_start v_len]. unfold a in *. repeat split; intros; lia.
      + cbn [bind]. eexists. split; [reflexivity|].
        cbn [sb_first sb_wrapped v_start v_len empty_view]. unfold a in *. repeat split; intros; lia.
    - cbn [bind]. destruct (Nat.ltb_spec 0 (n - a)).
      + rewrite view_sub_ok by (unfold a in *; lia). cbn [bind]. eexists. split; [reflexivity|].
        cbn [sb_first sb_wrapped v_start v_len empty_view]. unfold a in *. repeat split; intros; lia.
      + cbn [bind]. eexists. split; [reflexivity|].
        cbn [sb_first sb_wrapped v_start v_len empty_view]. unfold a in *. repeat split; intros; lia.
  Qed.

  (** ** circular buffers *)
  Definition ring_split (N p : nat) : split :=
    {| sb_first := {| v_start := p; v_len := N - p |}; sb_wrapped := {| v_start := 0; v_len := p |} |}.

  Lemma cbuf_next_ok N head delay adv :
    0 < N -> cbuf_next N head delay adv
             = Ok (if adv then (head + delay) mod N else head, ring_split N ((head + delay) mod N)).
  Proof.
    intros HN. unfold cbuf_next, umod. destruct (Nat.eqb_spec N 0); [lia|]. cbn [bind].
    set (p := (head + delay) mod N). assert (p < N) by (apply Nat.mod_upper_bound; lia).
    destruct (Nat.ltb_spec 0 (N - p)); [|lia].
    rewrite view_sub_ok by (cbn [v_len]; lia). cbn [bind v_start v_len].
    replace (N - (N - p)) with p by lia.
    destruct (Nat.ltb_spec 0 p).
    - rewrite view_sub_ok by (cbn [v_len]; lia). reflexivity.
    - cbn [bind]. assert (p = 0) as -> by lia. reflexivity.
  Qed.

  Lemma cbuf_advance_ok N head adv :
    0 < N -> cbuf_advance N head adv = Ok ((head + adv) mod N, ring_split N ((head + adv) mod N)).
  Proof.
    intros HN. unfold cbuf_advance, umod. destruct (Nat.eqb_spec N 0); [lia|]. cbn [bind].
    set (p := (head + adv) mod N). assert (p < N) by (apply Nat.mod_upper_bound; lia).
    rewrite view_sub_ok by (cbn [v_len]; lia). cbn [bind v_start v_len].
    replace (N - (N - p)) with p by lia.
    rewrite view_sub_ok by (cbn [v_len]; lia). reflexivity.
  Qed.

  Lemma ring_split_ok N p : p < N -> split_ok N (ring_split N p).
  Proof. intros. unfold split_ok, ring_split. cbn [sb_first sb_wrapped v_start v_len]. lia. Qed.

  (** distance from [p] forward to [i] on a ring of [N] places *)
  Definition rdist (N p i : nat) : nat := if p <=? i then i - p else i + N - p.

  Lemma ring_apply_mk (g : S -> S -> S) N p n f k h :
    0 < n -> p < N -> k <= N ->
    sb_apply g (ring_split N p) (mk n N f) (mk n k h)
    = Ok (mk n N (fun c i => if rdist N p i <? k then g (f c i) (h c (rdist N p i)) else f c i)).
  Proof.
    intros Hn Hp Hk. rewrite sb_apply_mk; auto using ring_split_ok.
    - unfold ring_split, rdist. cbn [sb_first sb_wrapped v_start v_len]. f_equal.
      apply mk_ext. intros c i Hc Hi.
      destruct (Nat.leb_spec p i); cbn [andb].
      + bcase; auto; lia.
      + rewrite Nat.sub_0_r. bcase; try lia; auto. do 2 f_equal. lia.
    - unfold sb_total, ring_split. cbn [sb_first sb_wrapped v_start v_len]. lia.
  Qed.

  Lemma mod_ring N p i : p < N -> i < N -> (p + i) mod N = if i <? N - p then p + i else p + i - N.
  Proof.
    intros. destruct (Nat.ltb_spec i (N - p)).
    - apply Nat.mod_small. lia.
    - replace (p + i) with (p + i - N + 1 * N) at 1 by lia.
      rewrite Nat.mod_add, Nat.mod_small; lia.
  Qed.

  Lemma ring_apply_to_mk (g : S -> S -> S) N p n f k h :
    0 < n -> p < N ->
    sb_apply_to g (ring_split N p) (mk n N f) (mk n k h)
    = Ok (mk n k (fun c i => if i <? N then g (h c i) (f c ((p + i) mod N)) else h c i)).
  Proof.
    intros Hn Hp. rewrite sb_apply_to_mk; auto using ring_split_ok.
    f_equal. unfold ring_split. cbn [sb_first sb_wrapped v_start v_len].
    apply mk_ext. intros c i Hc Hi. destruct (Nat.ltb_spec i N).
    - rewrite mod_ring by auto. bcase; auto; try lia. do 2 f_equal. lia.
    - bcase; auto; lia.
  Qed.

  (** the first [k] samples of a ring view *)
  Lemma ring_sub_mk (g : S -> S -> S) N p k n f h :
    0 < n -> p < N -> k <= N ->
    exists t, sb_sub_block (ring_split N p) k = Ok t /\
      sb_apply_to g t (mk n N f) (mk n k h)
      = Ok (mk n k (fun c i => g (h c i) (f c ((p + i) mod N)))) /\
      sb_clear t (mk n N f)
      = Ok (mk n N (fun c i => if rdist N p i <? k then s0 else f c i)).
  Proof.
    intros Hn Hp Hk.
    destruct (sb_sub_block_ok (ring_split N p) k) as (t & Ht & E1 & E2 & E3 & E4 & E5 & E6).
    { unfold sb_total, ring_split. cbn [sb_first sb_wrapped v_len]. lia. }
    exists t. split; auto.
    unfold ring_split in *. cbn [sb_first sb_wrapped v_start v_len] in *.
    assert (Hok : split_ok N t).
    { unfold split_ok.
      destruct (Nat.eq_dec (l1 t) 0) as [Z1|Z1], (Nat.eq_dec (l2 t) 0) as [Z2|Z2];
        rewrite ?E5, ?E6, ?E3, ?E4 by lia; lia. }
    split.
    - rewrite sb_apply_to_mk by auto. f_equal. apply mk_ext. intros c i Hc Hi.
      rewrite mod_ring by lia.
      destruct (Nat.ltb_spec i (l1 t)).
      + rewrite E3 by lia. bcase; auto; lia.
      + rewrite E4 by lia. bcase; try lia. do 2 f_equal. lia.
    - rewrite sb_clear_mk by auto. f_equal. apply mk_ext. intros c i Hc Hi.
      unfold rdist.
      destruct (Nat.eq_dec (l1 t) 0) as [Z1|Z1], (Nat.eq_dec (l2 t) 0) as [Z2|Z2];
        rewrite ?E5, ?E6, ?E3, ?E4 by lia; bcase; auto; lia.
  Qed.
End Blocks.
