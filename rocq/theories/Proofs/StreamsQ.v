(** * Feeding blocks when the output is only known up to a predicate *)
From Verif.Model Require Import Base Arith Juce.
From Verif.Spec Require Import Transform Signal.
From Verif.Proofs Require Import Lists Blocks Streams.

Section StreamsQ.
  Context {A : arith}.
  Notation S := (sample A).

  Lemma feed_genQ {St} (process : St -> audio A -> res (St * audio A)) (n : nat) (good : nat -> Prop)
        (Inv : nat -> St -> Prop) (x : nat -> nat -> S) (Q : nat -> nat -> S -> Prop) :
    (forall T s m, good m -> Inv T s ->
       exists s' y, process s (mk n m (fun c i => x c (T + i))) = Ok (s', mk n m y) /\
                    (forall c i, c < n -> i < m -> Q c (T + i) (y c i)) /\ Inv (T + m) s') ->
    forall blocks T s, (forall b, In b blocks -> exists m, good m /\ block_of n m b) -> Inv T s ->
      (forall c t, c < n -> t < length (channel c blocks) -> nth t (channel c blocks) s0 = x c (T + t)) ->
      exists s' outs, feed process s blocks = Ok (s', outs) /\
        (exists N, (forall c, c < n -> length (channel c blocks) = N) /\ Inv (T + N) s') /\
        length outs = length blocks /\
        (forall i, i < length blocks ->
           exists m, good m /\ shaped n m (nth i blocks []) /\ shaped n m (nth i outs [])) /\
        forall c, c < n -> length (channel c outs) = length (channel c blocks) /\
          forall t, t < length (channel c blocks) -> Q c (T + t) (nth t (channel c outs) s0).
  Proof.
    intros Hp blocks. induction blocks as [|b bs IH]; intros T s Hb Hi Hx.
    - exists s, []. split; [reflexivity|]. split.
      { exists 0. split; [reflexivity|]. now rewrite Nat.add_0_r. }
      split; [reflexivity|]. split; [simpl; intros; lia|]. intros c Hc. split; [reflexivity|].
      cbn. intros; lia.
    - destruct (Hb b (or_introl eq_refl)) as (m & Hg & Hsh).
      assert (Hlen : forall c, c < n -> length (nth c b []) = m).
      { intros c Hc. apply Hsh, nth_In. destruct Hsh; lia. }
      assert (Eb : b = mk n m (fun c i => x c (T + i))).
      { rewrite (shaped_eq n m b s0) at 1 by exact Hsh. apply mk_ext. intros c i Hc Hi'.
        rewrite <- Hx by (auto; rewrite channel_cons, app_length, Hlen by auto; lia).
        rewrite channel_cons, app_nth1 by (rewrite Hlen; auto). reflexivity. }
      destruct (Hp T s m Hg Hi) as (s1 & y & E1 & HQ1 & Hi1).
      destruct (IH (T + m) s1) as (s2 & outs & E2 & (N & HN & Hi2) & HL & Hshape & Hout); auto.
      + intros b' Hb'. apply Hb. now right.
      + intros c t Hc Ht. rewrite <- Nat.add_assoc, <- Hx.
        * rewrite channel_cons, app_nth2; rewrite Hlen by auto; [|lia]. f_equal. lia.
        * auto.
        * rewrite channel_cons, app_length, Hlen by auto. lia.
      + exists s2, (mk n m y :: outs). split.
        { cbn [feed]. rewrite Eb. eapply bind_eq; [exact E1|]. cbv beta iota.
          eapply bind_eq; [exact E2|]. reflexivity. }
        split.
        { exists (m + N). split; [|now rewrite Nat.add_assoc].
          intros c Hc. now rewrite channel_cons, app_length, Hlen, HN. }
        split; [simpl; lia|]. split.
        { intros [|i] Hi'; simpl.
          - exists m. split; [exact Hg|]. split; [exact Hsh|apply shaped_mk].
          - apply Hshape. simpl in Hi'. lia. }
        intros c Hc. destruct (Hout c Hc) as [Ho1 Ho2].
        change (channel c (mk n m y :: outs)) with (nth c (mk n m y) [] ++ channel c outs).
        rewrite channel_cons. rewrite mk_nth by auto. rewrite !app_length, Hlen, tab_length, Ho1 by auto. split; auto.
        intros t Ht. rewrite nth_app', tab_length. destruct (Nat.ltb_spec t m).
        * rewrite tab_nth by auto. now apply HQ1.
        * replace (T + t) with (T + m + (t - m)) by lia. apply Ho2. lia.
  Qed.

  Lemma sessions_genQ {St} (process : St -> audio A -> res (St * audio A)) (reset : St -> St)
        (n : nat) (good : nat -> Prop) (Inv : (nat -> nat -> S) -> nat -> St -> Prop)
        (Q : (nat -> nat -> S) -> nat -> nat -> S -> Prop) :
    (forall x T s m, good m -> Inv x T s ->
       exists s' y, process s (mk n m (fun c i => x c (T + i))) = Ok (s', mk n m y) /\
                    (forall c i, c < n -> i < m -> Q x c (T + i) (y c i)) /\ Inv x (T + m) s') ->
    (forall x T s x', Inv x T s -> Inv x' 0 (reset s)) ->
    forall sessions s, (forall x, Inv x 0 s) ->
    (forall blocks, In blocks sessions -> forall b, In b blocks -> exists m, good m /\ block_of n m b) ->
    exists s' outs, feed_sessions process reset s sessions = Ok (s', outs) /\
      (exists x T, Inv x T s') /\
      Forall2 (fun ins outs => length outs = length ins /\
        (forall i, i < length ins ->
           exists m, good m /\ shaped n m (nth i ins []) /\ shaped n m (nth i outs [])) /\
        forall c, c < n -> length (channel c outs) = length (channel c ins) /\
          forall t, t < length (channel c ins) -> Q (chan_fun ins) c t (nth t (channel c outs) s0))
      sessions outs.
  Proof.
    intros Hp Hr sessions. induction sessions as [|blocks rest IH]; intros s Hs Hb.
    - exists s, []. split; [reflexivity|]. split; [exists (fun _ _ => s0), 0; auto|constructor].
    - destruct (feed_genQ process n good (Inv (chan_fun blocks)) (chan_fun blocks)
                  (Q (chan_fun blocks)))
        with (blocks := blocks) (T := 0) (s := s)
        as (s1 & outs & E1 & (M & HM & Hi) & HL & Hshape & Hout); auto.
      { apply Hb. now left. }
      destruct (IH (reset s1)) as (s2 & outs2 & E2 & HI & HF).
      { intros x. eapply Hr; exact Hi. }
      { intros b' Hb'. apply Hb. now right. }
      exists s2, (outs :: outs2). split.
      { cbn [feed_sessions]. eapply bind_eq; [exact E1|]. cbv beta iota.
        eapply bind_eq; [exact E2|]. reflexivity. }
      split; [exact HI|]. constructor; [|exact HF]. split; [exact HL|]. split; [exact Hshape|].
      intros c Hc. destruct (Hout c Hc) as [H1 H2]. split; auto.
  Qed.
End StreamsQ.
