(** * Streams: the past of a signal, finite impulse responses, feeding blocks *)
From Verif.Model Require Import Base Arith Juce.
From Verif.Spec Require Import Transform Signal.
From Verif.Proofs Require Import Lists ComplexAlg Blocks.

Lemma Forall2_mono {X Y} (P Q : X -> Y -> Prop) l l' :
  (forall a b, P a b -> Q a b) -> Forall2 P l l' -> Forall2 Q l l'.
Proof. intros H. induction 1; constructor; auto. Qed.

Section Streams.
  Context {A : arith} (L : arith_laws A).
  Let Sring := law_ring A L.
  Add Ring sring : Sring.
  Notation S := (sample A).

  (** the value of [x] [d] samples before time [e]; silence before time 0 *)
  Definition ago (x : nat -> S) (e d : nat) : S := if d <=? e then x (e - d) else s0.

  Lemma ago_shift x e d k : ago x (e + k) (d + k) = ago x e d.
  Proof. unfold ago. bcase; try lia; auto. f_equal. lia. Qed.
  Lemma ago_eq x e d e' d' : e + d' = e' + d -> ago x e d = ago x e' d'.
  Proof. intros. unfold ago. bcase; try lia; auto. f_equal. lia. Qed.
  Lemma ago_now x e d t : e = d + t -> ago x e d = x t.
  Proof. intros ->. unfold ago. bcase; try lia; auto. f_equal. lia. Qed.
  Lemma ago_before x e d : e < d -> ago x e d = s0.
  Proof. intros. unfold ago. bcase; try lia; auto. Qed.

  (** output of the FIR filter with coefficients [h 0 .. h (n-1)] at time [t] *)
  Definition fir (n : nat) (h x : nat -> S) (t : nat) : S :=
    ssum n (fun j => smul (h j) (ago x t j)).

  Lemma fir_ext n h h' x x' t :
    (forall j, j < n -> h j = h' j) -> (forall i, i <= t -> x i = x' i) -> fir n h x t = fir n h' x' t.
  Proof.
    intros H1 H2. apply ssum_ext. intros j Hj. rewrite H1 by auto. f_equal. unfold ago.
    bcase; auto. apply H2. lia.
  Qed.

  (** a longer filter with zeros *)
  Lemma fir_extend n m h x t : n <= m -> (forall j, n <= j < m -> h j = s0) -> fir m h x t = fir n h x t.
  Proof.
    intros H1 H2. apply (ssum_extend L); auto. intros i Hi. rewrite H2 by auto. ring.
  Qed.

  Lemma fir_list_conv n (h : list S) x t m :
    length h <= n -> t < m -> fir n (fun j => nth j h s0) x t = conv_at h (tab m x) t.
  Proof.
    intros Hn Ht. unfold conv_at.
    transitivity (fir (Nat.max n (Datatypes.S t)) (fun j => nth j h s0) x t).
    - symmetry. apply fir_extend; [lia|]. intros j Hj. apply nth_overflow. lia.
    - unfold fir. rewrite (ssum_extend L (Datatypes.S t) (Nat.max n (Datatypes.S t))); [|lia|].
      + apply ssum_ext. intros j Hj. rewrite tab_nth by lia. f_equal. unfold ago. bcase; auto; lia.
      + intros i Hi. rewrite ago_before by lia. ring.
  Qed.

  (** ** Feeding blocks, given a one-block lemma *)
  Lemma channel_cons c (b : audio A) bs : channel c (b :: bs) = nth c b [] ++ channel c bs.
  Proof. reflexivity. Qed.

  Lemma channel_app c (bs bs' : list (audio A)) : channel c (bs ++ bs') = channel c bs ++ channel c bs'.
  Proof. unfold channel. now rewrite map_app, concat_app. Qed.

  Definition chan_fun (bs : list (audio A)) (c t : nat) : S := nth t (channel c bs) s0.

  Lemma feed_gen {St} (process : St -> audio A -> res (St * audio A)) (n : nat) (good : nat -> Prop)
        (Inv : nat -> St -> Prop) (x : nat -> nat -> S) (y : nat -> nat -> S) :
    (forall T s m, good m -> Inv T s ->
       exists s', process s (mk n m (fun c i => x c (T + i)))
                  = Ok (s', mk n m (fun c i => y c (T + i))) /\ Inv (T + m) s') ->
    forall blocks T s, (forall b, In b blocks -> exists m, good m /\ block_of n m b) -> Inv T s ->
      (forall c t, c < n -> t < length (channel c blocks) -> nth t (channel c blocks) s0 = x c (T + t)) ->
      exists s' outs, feed process s blocks = Ok (s', outs) /\
        (exists N, (forall c, c < n -> length (channel c blocks) = N) /\ Inv (T + N) s') /\
        length outs = length blocks /\
        (forall i, i < length blocks ->
           exists m, good m /\ shaped n m (nth i blocks []) /\ shaped n m (nth i outs [])) /\
        forall c, c < n -> channel c outs = tab (length (channel c blocks)) (fun t => y c (T + t)).
  Proof.
    intros Hp blocks. induction blocks as [|b bs IH]; intros T s Hb Hi Hx.
    - exists s, []. split; [reflexivity|]. split.
      { exists 0. split; [reflexivity|]. now rewrite Nat.add_0_r. }
      split; [reflexivity|]. split; [simpl; intros; lia|]. reflexivity.
    - destruct (Hb b (or_introl eq_refl)) as (m & Hg & Hsh).
      assert (Hlen : forall c, c < n -> length (nth c b []) = m).
      { intros c Hc. apply Hsh, nth_In. destruct Hsh; lia. }
      assert (Eb : b = mk n m (fun c i => x c (T + i))).
      { rewrite (shaped_eq n m b s0) at 1 by exact Hsh. apply mk_ext. intros c i Hc Hi'.
        rewrite <- Hx by (auto; rewrite channel_cons, app_length, Hlen by auto; lia).
        rewrite channel_cons, app_nth1 by (rewrite Hlen; auto). reflexivity. }
      destruct (Hp T s m Hg Hi) as (s1 & E1 & Hi1).
      destruct (IH (T + m) s1) as (s2 & outs & E2 & (N & HN & Hi2) & HL & Hshape & Hout); auto.
      + intros b' Hb'. apply Hb. now right.
      + intros c t Hc Ht. rewrite <- Nat.add_assoc, <- Hx.
        * rewrite channel_cons, app_nth2; rewrite Hlen by auto; [|lia]. f_equal. lia.
        * auto.
        * rewrite channel_cons, app_length, Hlen by auto. lia.
      + exists s2, (mk n m (fun c i => y c (T + i)) :: outs). split.
        { cbn [feed]. rewrite Eb. eapply bind_eq; [exact E1|]. cbv beta iota.
          eapply bind_eq; [exact E2|]. reflexivity. }
        split.
        { exists (m + N). split; [|now rewrite Nat.add_assoc].
          intros c Hc. now rewrite channel_cons, app_length, Hlen, HN. }
        split; [simpl; lia|]. split.
        { intros [|i] Hi'; simpl.
          - exists m. split; [exact Hg|]. split; [exact Hsh|apply shaped_mk].
          - apply Hshape. simpl in Hi'. lia. }
        intros c Hc. rewrite !channel_cons, app_length, Hlen, tab_app by auto.
        rewrite mk_nth by auto. f_equal. rewrite Hout by auto. apply tab_ext. intros. f_equal. lia.
  Qed.

  Lemma sessions_gen2 {St} (process : St -> audio A -> res (St * audio A)) (reset : St -> St)
        (n : nat) (good : nat -> Prop) (Inv : (nat -> nat -> S) -> nat -> St -> Prop)
        (y : (nat -> nat -> S) -> nat -> nat -> S) :
    (forall x T s m, good m -> Inv x T s ->
       exists s', process s (mk n m (fun c i => x c (T + i)))
                  = Ok (s', mk n m (fun c i => y x c (T + i))) /\ Inv x (T + m) s') ->
    (forall x T s x', Inv x T s -> Inv x' 0 (reset s)) ->
    forall sessions s, (forall x, Inv x 0 s) ->
    (forall blocks, In blocks sessions -> forall b, In b blocks -> exists m, good m /\ block_of n m b) ->
    exists s' outs, feed_sessions process reset s sessions = Ok (s', outs) /\
      (exists x T, Inv x T s') /\
      Forall2 (fun ins outs => length outs = length ins /\
        (forall i, i < length ins ->
           exists m, good m /\ shaped n m (nth i ins []) /\ shaped n m (nth i outs [])) /\
        forall c, c < n -> channel c outs = tab (length (channel c ins)) (y (chan_fun ins) c))
      sessions outs.
  Proof.
    intros Hp Hr sessions. induction sessions as [|blocks rest IH]; intros s Hs Hb.
    - exists s, []. split; [reflexivity|]. split; [exists (fun _ _ => s0), 0; auto|constructor].
    - destruct (feed_gen process n good (Inv (chan_fun blocks)) (chan_fun blocks)
                  (y (chan_fun blocks)))
        with (blocks := blocks) (T := 0) (s := s)
        as (s1 & outs & E1 & (M & HM & Hi) & HL & Hshape & Hout); auto.
      { apply Hb. now left. }
      destruct (IH (reset s1)) as (s2 & outs2 & E2 & HI & HF).
      { intros x. eapply Hr; exact Hi. }
      { intros b' Hb'. apply Hb. now right. }
      assert (HI2 : exists x T, Inv x T s2) by exact HI.
      exists s2, (outs :: outs2). split.
      { cbn [feed_sessions]. eapply bind_eq; [exact E1|]. cbv beta iota.
        eapply bind_eq; [exact E2|]. reflexivity. }
      split; [exact HI2|]. constructor; [|exact HF]. split; [exact HL|]. split; [exact Hshape|].
      intros c Hc. rewrite Hout by auto. apply tab_ext. reflexivity.
  Qed.

  (** the same when each channel only depends on itself *)
  Lemma sessions_gen {St} (process : St -> audio A -> res (St * audio A)) (reset : St -> St)
        (n : nat) (good : nat -> Prop) (Inv : (nat -> nat -> S) -> nat -> St -> Prop)
        (y : nat -> (nat -> S) -> nat -> S) :
    (forall x T s m, good m -> Inv x T s ->
       exists s', process s (mk n m (fun c i => x c (T + i)))
                  = Ok (s', mk n m (fun c i => y c (x c) (T + i))) /\ Inv x (T + m) s') ->
    (forall x T s x', Inv x T s -> Inv x' 0 (reset s)) ->
    forall sessions s, (forall x, Inv x 0 s) ->
    (forall blocks, In blocks sessions -> forall b, In b blocks -> exists m, good m /\ block_of n m b) ->
    exists s' outs, feed_sessions process reset s sessions = Ok (s', outs) /\
      (exists x T, Inv x T s') /\
      Forall2 (fun ins outs => length outs = length ins /\
        (forall i, i < length ins ->
           exists m, good m /\ shaped n m (nth i ins []) /\ shaped n m (nth i outs [])) /\
        forall c, c < n -> channel c outs = tab (length (channel c ins)) (y c (chan_fun ins c)))
      sessions outs.
  Proof.
    intros Hp Hr sessions s Hs Hb.
    exact (sessions_gen2 process reset n good Inv (fun x c => y c (x c)) Hp Hr sessions s Hs Hb).
  Qed.

  Lemma fir_convolve N (h : list S) x m :
    length h <= N -> tab m (fir N (fun j => nth j h s0) x) = convolve h (tab m x).
  Proof.
    intros H. unfold convolve. rewrite tab_length. apply tab_ext. intros t Ht.
    now apply fir_list_conv.
  Qed.

  Lemma delayed_tab d m (f : nat -> S) : tab m (fun t => ago f t d) = delayed d (tab m f).
  Proof.
    unfold delayed. rewrite tab_length. symmetry. apply list_tab with (d := s0).
    - rewrite firstn_length, app_length, repeat_length, tab_length. lia.
    - intros i Hi. rewrite nth_firstn'. destruct (Nat.ltb_spec i m); [|lia].
      rewrite nth_app', repeat_length. unfold ago. destruct (Nat.ltb_spec i d).
      + rewrite nth_repeat. bcase; auto; lia.
      + rewrite tab_nth by lia. bcase; auto; lia.
  Qed.

  (** from a one-block lemma for every input stream to [convolves] *)
  Lemma convolves_gen {St} (process : St -> audio A -> res (St * audio A)) (reset : St -> St)
        (n N : nat) (h : nat -> list S) (Inv : (nat -> nat -> S) -> nat -> St -> Prop) :
    (forall c, c < n -> length (h c) <= N) ->
    (forall x T s m, Inv x T s ->
       exists s', process s (mk n m (fun c i => x c (T + i)))
                  = Ok (s', mk n m (fun c i => fir N (fun j => nth j (h c) s0) (x c) (T + i)))
                  /\ Inv x (T + m) s') ->
    (forall x T s x', Inv x T s -> Inv x' 0 (reset s)) ->
    forall s, (forall x, Inv x 0 s) -> convolves n h process reset s.
  Proof.
    intros Hh Hp Hr s Hs sessions Hb.
    destruct (sessions_gen process reset n (fun _ => True) Inv
                (fun c => fir N (fun j => nth j (h c) s0))) with (sessions := sessions) (s := s)
      as (s' & outs & E & _ & HF); auto.
    { intros blocks Hin b Hb'. destruct (Hb blocks Hin b Hb') as (m & Hm). eauto. }
    exists s', outs. split; [exact E|]. eapply Forall2_mono; [|exact HF].
    intros ins os (H1 & H2 & H3). split; auto. split.
    { intros i Hi. destruct (H2 i Hi) as (m & _ & Hm). eauto. }
    intros c Hc. rewrite H3, fir_convolve by auto. f_equal. symmetry. apply tab_of_list.
  Qed.

  Lemma convolves_late_gen {St} (process : St -> audio A -> res (St * audio A)) (reset : St -> St)
        (n B d N : nat) (h : nat -> list S) (Inv : (nat -> nat -> S) -> nat -> St -> Prop) :
    (forall c, c < n -> length (h c) <= N) ->
    (forall x T s, Inv x T s ->
       exists s', process s (mk n B (fun c i => x c (T + i)))
                  = Ok (s', mk n B (fun c i => ago (fir N (fun j => nth j (h c) s0) (x c)) (T + i) d))
                  /\ Inv x (T + B) s') ->
    (forall x T s x', Inv x T s -> Inv x' 0 (reset s)) ->
    forall s, (forall x, Inv x 0 s) -> convolves_late n B d h process reset s.
  Proof.
    intros Hh Hp Hr s Hs sessions Hb.
    destruct (sessions_gen process reset n (fun m => m = B) Inv
                (fun c x t => ago (fir N (fun j => nth j (h c) s0) x) t d)) with (sessions := sessions) (s := s)
      as (s' & outs & E & _ & HF); auto.
    { intros x T s1 m ->. apply Hp. }
    { intros blocks Hin b Hb'. exists B. eauto. }
    exists s', outs. split; [exact E|]. eapply Forall2_mono; [|exact HF].
    intros ins os (H1 & H2 & H3). split; auto. split.
    { intros b Hin. destruct (In_nth _ _ [] Hin) as (i & Hi & <-).
      destruct (H2 i) as (m & -> & _ & Hm); [lia|exact Hm]. }
    intros c Hc. rewrite H3 by auto. rewrite delayed_tab, fir_convolve by auto.
    do 2 f_equal. symmetry. apply tab_of_list.
  Qed.

  (** one channel *)
  Definition lift1 {St} (process : St -> list S -> res (St * list S)) (s : St) (b : audio A)
    : res (St * audio A) :=
    ' (s, o) <- process s (nth 0 b []) ;; Ok (s, [o]).

  Lemma feed_lift1 {St} (process : St -> list S -> res (St * list S)) : forall blocks s,
    feed (lift1 process) s (map (fun b => [b]) blocks)
    = (' (s, os) <- feed process s blocks ;; Ok (s, map (fun b => [b]) os)).
  Proof.
    induction blocks as [|b bs IH]; intros s; [reflexivity|]. cbn [map feed lift1 nth].
    unfold lift1. cbn [nth]. destruct (process s b) as [[s1 o]| |]; cbn [bind]; auto.
    fold (lift1 process). rewrite IH. destruct (feed process s1 bs) as [[s2 os]| |]; reflexivity.
  Qed.
  Lemma feed_sessions_lift1 {St} (process : St -> list S -> res (St * list S)) reset : forall sessions s,
    feed_sessions (lift1 process) reset s (map (map (fun b => [b])) sessions)
    = (' (s, os) <- feed_sessions process reset s sessions ;; Ok (s, map (map (fun b => [b])) os)).
  Proof.
    induction sessions as [|b bs IH]; intros s; [reflexivity|]. cbn [map feed_sessions].
    rewrite feed_lift1. destruct (feed process s b) as [[s1 o]| |]; cbn [bind]; auto.
    rewrite IH. destruct (feed_sessions process reset (reset s1) bs) as [[s2 os]| |]; reflexivity.
  Qed.
  Lemma channel_lift1 (blocks : list (list S)) : channel 0 (map (fun b => [b]) blocks) = concat blocks.
  Proof. unfold channel. rewrite map_map. cbn [nth]. now rewrite map_id. Qed.

  Lemma late1_lift {St} (process : St -> list S -> res (St * list S)) reset B d h s :
    convolves_late 1 B d (fun _ => h) (lift1 process) reset s -> convolves_late1 B d h process reset s.
  Proof.
    intros H sessions Hb.
    destruct (H (map (map (fun b => [b])) sessions)) as (s' & outs & E & HF).
    { intros blocks Hin b Hb'. apply in_map_iff in Hin as (bs & <- & Hin).
      apply in_map_iff in Hb' as (b0 & <- & Hb0). split; [reflexivity|].
      intros c [<-|[]]. eapply Hb; eauto. }
    rewrite feed_sessions_lift1 in E.
    destruct (feed_sessions process reset s sessions) as [[s2 os]| |]; try discriminate.
    cbn [bind] in E. injection E as <- <-. exists s2, os. split; [reflexivity|].
    clear - HF. revert os HF.
    induction sessions as [|i sessions IH]; intros [|o os] HF; cbn [map] in HF; inversion HF as [|? ? ? ? (H1 & H2 & H3) HR];
      constructor.
    - subst. rewrite !map_length in H1. split; auto. split.
      + intros b Hb. specialize (H2 [b]). destruct H2 as [_ H2]; [apply in_map_iff; eauto|]. apply H2. now left.
      + specialize (H3 0 ltac:(lia)). rewrite !channel_lift1 in H3. exact H3.
    - subst. apply IH. exact HR.
  Qed.
End Streams.
