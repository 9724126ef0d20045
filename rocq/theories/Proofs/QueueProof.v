(** * The queue under every schedule *)
From Verif.Model Require Import Base VisitorQueue.
From Verif.Spec Require Import Fifo.
From Verif.Proofs Require Import Lists.

(** ** Ring arithmetic *)
Section Ring.
  Variable N : nat.
  Hypothesis HN : 0 < N.

  Lemma mod_add x d : d <= N -> (x + d) mod N = if N <=? x mod N + d then x mod N + d - N else x mod N + d.
  Proof.
    intros Hd. pose proof (Nat.mod_upper_bound x N ltac:(lia)) as Hx.
    rewrite <- Nat.add_mod_idemp_l by lia.
    destruct (Nat.leb_spec N (x mod N + d)).
    - replace (x mod N + d) with ((x mod N + d - N) + 1 * N) at 1 by lia.
      rewrite Nat.mod_add by lia. destruct (Nat.eq_dec (x mod N + d - N) N); [lia|].
      rewrite Nat.mod_small; lia.
    - apply Nat.mod_small. lia.
  Qed.

  Lemma advance_ok x d : d <= N -> fifo_advance N (x mod N) d = (x + d) mod N.
  Proof. intros. unfold fifo_advance. now rewrite mod_add. Qed.

  Lemma ready_ok r p : r <= p < r + N -> fifo_num_ready N (r mod N) (p mod N) = p - r.
  Proof.
    intros H. pose proof (Nat.mod_upper_bound r N ltac:(lia)).
    pose proof (mod_add r (p - r) ltac:(lia)) as E. replace (r + (p - r)) with p in E by lia.
    unfold fifo_num_ready. rewrite E.
    destruct (Nat.leb_spec N (r mod N + (p - r))).
    - destruct (Nat.leb_spec (r mod N) (r mod N + (p - r) - N)); lia.
    - destruct (Nat.leb_spec (r mod N) (r mod N + (p - r))); lia.
  Qed.

  Lemma prepare_write_ok r p : r <= p -> p + 1 < r + N ->
    fifo_prepare_write N (r mod N) (p mod N) 1 = (p mod N, 1, 0, 0).
  Proof.
    intros H1 H2. pose proof (ready_ok r p ltac:(lia)) as E. unfold fifo_num_ready in E.
    pose proof (Nat.mod_upper_bound r N ltac:(lia)). pose proof (Nat.mod_upper_bound p N ltac:(lia)).
    unfold fifo_prepare_write.
    replace (Nat.min 1 _) with 1.
    - cbn [Nat.eqb]. rewrite Nat.min_r by lia. reflexivity.
    - destruct (Nat.leb_spec (r mod N) (p mod N)); lia.
  Qed.

  Lemma prepare_read_ok r p n : r <= p < r + N -> n <= p - r ->
    fifo_indices (fifo_prepare_read N (r mod N) (p mod N) n) = map (fun j => j mod N) (seq r n) /\
    fifo_blocks (fifo_prepare_read N (r mod N) (p mod N) n) = n.
  Proof.
    intros H Hn. pose proof (Nat.mod_upper_bound r N ltac:(lia)) as Hr.
    unfold fifo_prepare_read. rewrite ready_ok, Nat.min_l by lia.
    destruct (Nat.eqb_spec n 0) as [->|]; [split; reflexivity|].
    pose proof (mod_add r (p - r) ltac:(lia)) as E. replace (r + (p - r)) with p in E by lia.
    assert (Hseq : forall k a x, a mod N = x -> x + k <= N -> map (fun j => j mod N) (seq a k) = seq x k).
    { induction k as [|k IH]; intros a x Ex Hk; auto. cbn [seq map]. f_equal; auto.
      destruct k as [|k]; [reflexivity|]. apply IH; [|lia].
      replace (S a) with (a + 1) by lia. rewrite mod_add by lia. rewrite Ex.
      destruct (Nat.leb_spec N (x + 1)); lia. }
    destruct (Nat.eqb_spec (n - Nat.min (N - r mod N) n) 0) as [Ez|Ez].
    - cbn [fifo_indices fifo_blocks]. rewrite Nat.min_r by lia. cbn [seq]. rewrite app_nil_r. split; [|lia].
      symmetry. apply Hseq; auto. lia.
    - rewrite (Nat.min_l (N - r mod N)) by lia.
      set (b1 := N - r mod N) in *. 
      assert (Hp : p mod N = r mod N + (p - r) - N).
      { rewrite E. destruct (Nat.leb_spec N (r mod N + (p - r))); lia. }
      rewrite Nat.min_l by lia. cbn [fifo_indices fifo_blocks]. split; [|lia].
      replace n with (b1 + (n - b1)) at 2 by lia. rewrite seq_app, map_app. f_equal.
      + symmetry. apply Hseq; auto. lia.
      + symmetry. apply Hseq; [|lia]. rewrite mod_add by lia.
        destruct (Nat.leb_spec N (r mod N + b1)); lia.
  Qed.

  Lemma mod_neq i j : i < j < i + N -> i mod N <> j mod N.
  Proof.
    intros H. pose proof (Nat.mod_upper_bound i N ltac:(lia)).
    replace j with (i + (j - i)) by lia. rewrite mod_add by lia.
    destruct (Nat.leb_spec N (i mod N + (j - i))); lia.
  Qed.
End Ring.

(** ** Logs *)
Section Log.
  Context {T : Type}.
  Notation log := (list (event T)).

  Lemma pushes_app : forall (l1 l2 : log) acc cur,
    pushes acc cur (l1 ++ l2) = let '(a, c) := pushes acc cur l1 in pushes a c l2.
  Proof.
    induction l1 as [|e l1 IH]; intros l2 acc cur; [reflexivity|].
    cbn [app pushes]. destruct e as [c|[|]| | |]; apply IH.
  Qed.
  Lemma completed_app : forall (l1 l2 : log) b n,
    completed b n (l1 ++ l2) = completed (completed b n l1) (n + length (visited l1)) l2.
  Proof.
    induction l1 as [|e l1 IH]; intros l2 b n; cbn [app completed visited flat_map length].
    - now rewrite Nat.add_0_r.
    - fold (visited l1). destruct e; cbn [app]; rewrite IH; auto. cbn [length]. f_equal. lia.
  Qed.
  Lemma visited_app (l1 l2 : log) : visited (l1 ++ l2) = visited l1 ++ visited l2.
  Proof. apply flat_map_app. Qed.
End Log.

Lemma upd_same {X} (l : list X) i v d : i < length l -> nth i (upd l i v) d = v.
Proof. revert i. induction l; intros [|i] H; cbn in *; try lia; auto. apply IHl. lia. Qed.
Lemma upd_other {X} (l : list X) i j v d : i <> j -> nth j (upd l i v) d = nth j l d.
Proof. revert i j. induction l; intros [|i] [|j] H; cbn in *; try lia; auto. Qed.
Lemma upd_len {X} (l : list X) i v : length (upd l i v) = length l.
Proof. revert i. induction l; intros [|i]; cbn; auto. Qed.
Lemma set_ok {X} (l : list X) i v : i < length l -> set l i v = Ok (upd l i v).
Proof. intros. unfold set. destruct (Nat.ltb_spec i (length l)); auto. lia. Qed.
Lemma get_nth {X} (l : list X) i d : i < length l -> get l i = Ok (nth i l d).
Proof. intros. unfold get. now rewrite (nth_error_nth' l d). Qed.

(** ** The invariant *)
Section Inv.
  Context {T : Type}.
  Variable N : nat.
  Hypothesis HN : 2 <= N.
  Notation queue := (queue T).
  Notation log := (list (event T)).

  (** [pub]: the commands stored and published so far; [rel]: how many of their slots have been
      released; [h]: how many were moved out.  [A]: how many pushes had returned true when
      the Service running (or, if none is, the last one) was called. *)
  Definition service_inv (pub : list T) (rel h A : nat) (vis : list (option T)) (start : nat)
             (p : service_pc T) : Prop :=
    match p with
    | SIdle | SReady1 => h = rel /\ vis = map Some (firstn h pub)
    | SReady2 v => h = rel /\ vis = map Some (firstn h pub) /\ v = start
    | SPrep1 n => h = rel /\ vis = map Some (firstn h pub) /\ rel + n <= length pub /\ A <= rel + n
    | SPrep2 n v => h = rel /\ vis = map Some (firstn h pub) /\ rel + n <= length pub /\ A <= rel + n /\ v = start
    | SLoop todo n => rel <= h /\ vis = map Some (firstn h pub) /\ rel + n <= length pub /\ A <= rel + n /\
                      h <= rel + n /\ todo = map (fun j => j mod N) (seq h (rel + n - h))
    | SVisit c todo n => rel < h /\ vis ++ [c] = map Some (firstn h pub) /\ rel + n <= length pub /\ A <= rel + n /\
                      h <= rel + n /\ todo = map (fun j => j mod N) (seq h (rel + n - h))
    | SFin1 n => vis = map Some (firstn h pub) /\ rel + n <= length pub /\ A <= rel + n /\ h = rel + n
    | SFin2 v => vis = map Some (firstn h pub) /\ rel <= h /\ A <= h /\ v = h mod N
    | SRet => h = rel /\ vis = map Some (firstn h pub) /\ A <= h
    end.

  Definition push_inv (pub : list T) (rel B : nat) (st : list (option T)) (acc : list T) (cur cmd : option T)
             (p : push_pc) : Prop :=
    let P := length pub in
    match p with
    | PIdle => acc = pub /\ cur = None
    | PFree1 => acc = pub /\ cur = cmd /\ cmd <> None
    | PFree2 v => acc = pub /\ cur = cmd /\ cmd <> None /\ exists r, B <= r <= rel /\ P < r + N /\ v = r mod N
    | PPrep1 => acc = pub /\ cur = cmd /\ cmd <> None /\ P + 1 < rel + N
    | PPrep2 v => acc = pub /\ cur = cmd /\ cmd <> None /\ exists r, r <= rel /\ P + 1 < r + N /\ v = r mod N
    | PStore w => acc = pub /\ cur = cmd /\ cmd <> None /\ P + 1 < rel + N /\ w = (P mod N, 1, 0, 0)
    | PFin1 n => acc = pub /\ n = 1 /\ P + 1 < rel + N /\ cur <> None /\ nth (P mod N) st None = cur
    | PFin2 v => acc = pub /\ v = (P + 1) mod N /\ P + 1 < rel + N /\ cur <> None /\ nth (P mod N) st None = cur
    | PRet true => exists c, cur = Some c /\ pub = acc ++ [c]
    | PRet false => acc = pub /\ cur = cmd /\ cmd <> None /\ N - 1 + B <= P
    end.

  Record inv (q : queue) (l : log) (A B : nat) (pub : list T) (rel h : nat) : Prop := {
    i_len : length (q_storage q) = N;
    i_start : q_start q = rel mod N;
    i_end : q_end q = length pub mod N;
    i_rel : rel <= h;
    i_h : h <= length pub;
    i_room : length pub < rel + N;
    i_slots : forall j, h <= j < length pub -> nth (j mod N) (q_storage q) None = nth_error pub j;
    i_service : service_inv pub rel h A (visited l) (q_start q) (q_service q);
    i_push : push_inv pub rel B (q_storage q) (fst (pushes [] None l)) (snd (pushes [] None l)) (q_cmd q) (q_push q);
    i_A : A <= length pub;
    i_B : B <= rel;
    i_serviced : serviced l <= rel
  }.

  Lemma inv_init : inv (q_init N) [] 0 0 [] 0 0.
  Proof.
    constructor; cbn; try lia; auto.
    - apply repeat_length.
    - now rewrite Nat.mod_0_l by lia.
    - now rewrite Nat.mod_0_l by lia.
  Qed.

  Lemma firstn_S_nth {X} (l : list X) k x : nth_error l k = Some x -> firstn (S k) l = firstn k l ++ [x].
  Proof.
    revert k. induction l as [|a l IH]; intros [|k] H; cbn in *; try discriminate.
    - now injection H as ->.
    - f_equal. now apply IH.
  Qed.

  Lemma push_step_inv q l A B pub rel h : inv q l A B pub rel h ->
    exists q' e pub', push_step N q = Ok (q', e) /\ inv q' (l ++ e) A B pub' rel h /\
                      prefix pub pub' /\ (e <> [] -> exists b, q_push q = PRet b /\ e = [EvPushed b]) /\
                      q_service q' = q_service q.
  Proof.
    intros [H1 H2 H3 H4 H5 H6 H7 H8 H9 H10 H11 H12]. unfold push_step.
    assert (Hself : prefix pub pub) by (exists []; now rewrite app_nil_r).
    assert (HP : length pub mod N < N) by (apply Nat.mod_upper_bound; lia).
    assert (Hser : forall p pub', prefix pub pub' -> service_inv pub rel h A (visited l) (q_start q) p ->
              service_inv pub' rel h A (visited l) (q_start q) p).
    { intros p pub' [r Er] Hp.
      assert (Hf : firstn h pub' = firstn h pub).
      { rewrite Er, firstn_app. replace (h - length pub) with 0 by lia. cbn. now rewrite app_nil_r. }
      assert (Hl : length pub <= length pub') by (rewrite Er, app_length; lia).
      destruct p; cbn in *; rewrite ?Hf; intuition lia. }
    destruct (q_push q) eqn:Epc; cbn [push_inv] in H9.
    - exists q, [], pub. rewrite app_nil_r. split; [auto|split; [|repeat split; auto; congruence]].
      constructor; auto. now rewrite Epc.
    - eexists _, [], pub. rewrite app_nil_r. split; [reflexivity|split; [|repeat split; auto; congruence]].
      constructor; cbn; auto. destruct H9 as (a & b & c). repeat split; auto. exists rel. repeat split; auto.
    - destruct H9 as (a & b & c & r & Hr & HPr & ->).
      eexists _, [], pub. rewrite app_nil_r. split; [reflexivity|split; [|repeat split; auto; congruence]].
      constructor; cbn; auto. unfold fifo_free_space. rewrite H3, ready_ok by lia.
      destruct (Nat.eqb_spec (N - (length pub - r) - 1) 0); cbn; repeat split; auto; lia.
    - destruct H9 as (a & b & c & d).
      eexists _, [], pub. rewrite app_nil_r. split; [reflexivity|split; [|repeat split; auto; congruence]].
      constructor; cbn; auto. repeat split; auto. exists rel. repeat split; auto.
    - destruct H9 as (a & b & c & r & Hr & HPr & ->).
      eexists _, [], pub. rewrite app_nil_r. split; [reflexivity|split; [|repeat split; auto; congruence]].
      constructor; cbn [with_push q_storage q_start q_end q_push q_service q_cmd push_inv]; auto.
      repeat split; auto; [lia|]. rewrite H3. apply prepare_write_ok; lia.
    - destruct H9 as (a & b & c & d & ->). cbn [Nat.eqb negb]. rewrite set_ok by lia. cbn [bind].
      eexists _, [], pub. rewrite app_nil_r. split; [reflexivity|split; [|repeat split; auto; congruence]].
      constructor; cbn [with_push q_storage q_start q_end q_push q_service q_cmd push_inv]; auto.
      + now rewrite upd_len.
      + intros j Hj. rewrite upd_other; auto. intros E. symmetry in E. revert E. apply mod_neq; lia.
      + repeat split; auto; [congruence|]. rewrite upd_same by lia. auto.
    - destruct H9 as (a & -> & c & d & e).
      eexists _, [], pub. rewrite app_nil_r. split; [reflexivity|split; [|repeat split; auto; congruence]].
      constructor; cbn [with_push q_storage q_start q_end q_push q_service q_cmd push_inv]; auto.
      repeat split; auto. rewrite H3. apply advance_ok; lia.
    - destruct H9 as (a & -> & c & d & e).
      destruct (snd (pushes [] None l)) as [x|] eqn:Ex; [|congruence].
      eexists _, [], (pub ++ [x]). rewrite app_nil_r. split; [reflexivity|].
      assert (Hpre : prefix pub (pub ++ [x])) by (exists [x]; auto).
      split; [|repeat split; auto; congruence].
      constructor; cbn [with_push q_storage q_start q_end q_push q_service q_cmd push_inv]; auto.
      + now rewrite app_length.
      + rewrite app_length. lia.
      + rewrite app_length. cbn. lia.
      + rewrite app_length. cbn. intros j Hj. destruct (Nat.eq_dec j (length pub)) as [->|].
        * rewrite e, nth_error_app2, Nat.sub_diag by lia. reflexivity.
        * rewrite H7, nth_error_app1 by lia. reflexivity.
      + rewrite a. eauto.
      + cbn. rewrite app_length. lia.
    - eexists _, [EvPushed b], pub. split; [reflexivity|split; [|repeat split; eauto]].
      constructor; cbn [with_push q_storage q_start q_end q_push q_service q_cmd push_inv]; auto.
      + rewrite visited_app. cbn. rewrite app_nil_r. auto.
      + rewrite pushes_app. destruct (pushes [] None l) as [acc cur] eqn:Ep. cbn [fst snd] in *.
        destruct b; cbn.
        * destruct H9 as (x & -> & ->). auto.
        * destruct H9 as (-> & _ & _). auto.
      + unfold serviced. rewrite completed_app. exact H12.
  Qed.

  Lemma service_step_inv q l A B pub rel h : inv q l A B pub rel h ->
    exists q' e rel' h', service_step N q = Ok (q', e) /\ inv q' (l ++ e) A B pub rel' h' /\
                         q_push q' = q_push q /\
                         (In EvServiced e -> q_service q = SRet) /\
                         (q_service q' = SIdle -> q_service q = SIdle \/ e = [EvServiced]) /\
                         (forall x, ~ In (EvPushed x) e).
  Proof.
    intros [H1 H2 H3 H4 H5 H6 H7 H8 H9 H10 H11 H12]. unfold service_step.
    assert (Hpu : forall rel' p, rel <= rel' ->
              push_inv pub rel B (q_storage q) (fst (pushes [] None l)) (snd (pushes [] None l)) (q_cmd q) p ->
              push_inv pub rel' B (q_storage q) (fst (pushes [] None l)) (snd (pushes [] None l)) (q_cmd q) p).
    { intros rel' p Hrel Hp. destruct p as [| |v| |v| | | |[|]]; cbn in *; auto; try (intuition lia).
      - destruct Hp as (a & b & c & r & Hr & Hx & Hv). repeat split; auto. exists r. repeat split; auto; lia.
      - destruct Hp as (a & b & c & r & Hr & Hx & Hv). repeat split; auto. exists r. repeat split; auto; lia. }
    assert (Hnil : In (@EvServiced T) [] -> q_service q = SRet) by (intros []).
    assert (Hnil2 : forall x, ~ In (@EvPushed T x) []) by (intros x []).
    destruct (q_service q) as [| |v|n|n v|todo n|c todo n|n|v|] eqn:Epc; cbn [service_inv] in H8.
    - exists q, [], rel, h. rewrite app_nil_r. split; [auto|]. split; [|repeat split; auto].
      constructor; auto. now rewrite Epc.
    - eexists _, [], rel, h. rewrite app_nil_r. split; [reflexivity|]. split; [|repeat split; auto; discriminate].
      constructor; auto. cbn. tauto.
    - destruct H8 as (a & b & ->).
      eexists _, [], rel, h. rewrite app_nil_r. split; [reflexivity|]. split; [|repeat split; auto; discriminate].
      assert (E : fifo_num_ready N (q_start q) (q_end q) = length pub - rel) by (rewrite H2, H3; apply ready_ok; lia).
      constructor; auto. cbn; rewrite ?E; repeat split; auto; lia.
    - destruct H8 as (a & b & c & d).
      eexists _, [], rel, h. rewrite app_nil_r. split; [reflexivity|]. split; [|repeat split; auto; discriminate].
      constructor; auto. cbn. tauto.
    - destruct H8 as (a & b & c & d & ->). cbv zeta.
      destruct (prepare_read_ok N ltac:(lia) rel (length pub) n) as [E1 E2]; try lia.
      eexists _, [], rel, h. rewrite app_nil_r. split; [reflexivity|]. split; [|repeat split; auto; discriminate].
      rewrite H2, H3, E1, E2.
      constructor; auto. cbn. repeat split; auto; try lia. f_equal. f_equal; lia.
    - destruct todo as [|i todo].
      + destruct H8 as (a & b & c & d & e & f).
        assert (rel + n - h = 0) by (destruct (rel + n - h); auto; discriminate).
        eexists _, [], rel, h. rewrite app_nil_r. split; [reflexivity|]. split; [|repeat split; auto; discriminate].
        constructor; auto. cbn. repeat split; auto; lia.
      + destruct H8 as (a & b & c & d & e & f).
        destruct (rel + n - h) as [|k] eqn:Ek; [discriminate|]. cbn [seq map] in f. injection f as -> ->.
        assert (Hi : h mod N < N) by (apply Nat.mod_upper_bound; lia).
        rewrite (get_nth _ _ None) by lia. cbn [bind]. rewrite set_ok by lia. cbn [bind].
        eexists _, [], rel, (S h). rewrite app_nil_r. split; [reflexivity|].
        rewrite H7 by lia.
        destruct (nth_error pub h) as [x|] eqn:Ex; [|apply nth_error_None in Ex; lia].
        split; [|repeat split; auto; discriminate].
        constructor; cbn [q_storage q_start q_end q_push q_service q_cmd service_inv]; auto; try lia.
        * now rewrite upd_len.
        * intros j Hj. rewrite upd_other; [apply H7; lia|]. apply mod_neq; lia.
        * repeat split; auto; try lia. rewrite b, (firstn_S_nth pub h x Ex), map_app. reflexivity.
          do 2 f_equal. lia.
        * assert (Hother : forall v, push_inv pub rel B (q_storage q) (fst (pushes [] None l)) (snd (pushes [] None l)) (q_cmd q) (q_push q) ->
             push_inv pub rel B (upd (q_storage q) (h mod N) v) (fst (pushes [] None l)) (snd (pushes [] None l)) (q_cmd q) (q_push q)).
          { intros v Hp. destruct (q_push q); cbn in *; auto.
            - destruct Hp as (p1 & p2 & p3 & p4 & p5). repeat split; auto. rewrite upd_other; auto. apply mod_neq; lia.
            - destruct Hp as (p1 & p2 & p3 & p4 & p5). repeat split; auto. rewrite upd_other; auto. apply mod_neq; lia. }
          apply Hother, H9.
    - destruct H8 as (a & b & d & e & f & g).
      eexists _, [EvVisit c], rel, h. split; [reflexivity|].
      split; [|repeat split; auto; try discriminate; try (intros [?|[]]; discriminate)].
      2: intros x [?|[]]; discriminate.
      constructor; cbn [with_service q_storage q_start q_end q_push q_service q_cmd service_inv]; auto.
      + rewrite visited_app. cbn [visited flat_map app]. repeat split; auto; lia.
      + rewrite pushes_app. destruct (pushes [] None l); cbn. auto.
      + unfold serviced. rewrite completed_app. exact H12.
    - destruct H8 as (a & b & d & e).
      eexists _, [], rel, h. rewrite app_nil_r. split; [reflexivity|].
      split; [|repeat split; auto; discriminate].
      constructor; cbn [with_service q_storage q_start q_end q_push q_service q_cmd service_inv]; auto.
      repeat split; auto; try lia. rewrite H2, advance_ok by lia. now rewrite e.
    - destruct H8 as (a & b & d & ->).
      eexists _, [], h, h. rewrite app_nil_r. split; [reflexivity|].
      split; [|repeat split; auto; discriminate].
      constructor; cbn [with_service q_storage q_start q_end q_push q_service q_cmd service_inv]; auto; lia.
    - destruct H8 as (a & b & d).
      eexists _, [EvServiced], rel, h. split; [reflexivity|].
      split; [|repeat split; auto].
      2: intros x [?|[]]; discriminate.
      constructor; cbn [with_service q_storage q_start q_end q_push q_service q_cmd service_inv]; auto.
      + rewrite visited_app. cbn. rewrite app_nil_r. auto.
      + rewrite pushes_app. destruct (pushes [] None l); cbn. auto.
      + unfold serviced. rewrite completed_app. cbn. rewrite b, map_length, firstn_length. lia.
  Qed.

  Lemma call_push_inv q l A B pub rel h c : inv q l A B pub rel h -> q_push q = PIdle ->
    inv {| q_start := q_start q; q_end := q_end q; q_storage := q_storage q;
           q_cmd := Some c; q_push := PFree1; q_service := q_service q |} (l ++ [EvPush c]) A rel pub rel h.
  Proof.
    intros [H1 H2 H3 H4 H5 H6 H7 H8 H9 H10 H11 H12] Epc. rewrite Epc in H9. destruct H9 as [H9 _].
    constructor; cbn [q_storage q_start q_end q_push q_service q_cmd push_inv]; auto.
    + rewrite visited_app. cbn. rewrite app_nil_r. auto.
    + rewrite pushes_app. destruct (pushes [] None l); cbn in *. repeat split; auto. discriminate.
    + unfold serviced. rewrite completed_app. exact H12.
  Qed.
  Lemma call_service_inv q l A B pub rel h : inv q l A B pub rel h -> q_service q = SIdle ->
    inv (with_service q SReady1) (l ++ [EvService]) (length (accepted l)) B pub rel h.
  Proof.
    intros [H1 H2 H3 H4 H5 H6 H7 H8 H9 H10 H11 H12] Epc. rewrite Epc in H8.
    constructor; cbn [with_service q_storage q_start q_end q_push q_service q_cmd service_inv]; auto.
    + rewrite visited_app. cbn. rewrite app_nil_r. exact H8.
    + rewrite pushes_app. destruct (pushes [] None l); cbn in *. exact H9.
    + unfold accepted. destruct (q_push q) as [| | | | | | | |[|]]; cbn in H9; try (destruct H9 as [-> _]; lia).
      destruct H9 as (x & _ & ->). rewrite app_length. lia.
    + unfold serviced. rewrite completed_app. exact H12.
  Qed.

  Lemma move_inv q l A B pub rel h m : inv q l A B pub rel h ->
    exists q' e A' B' pub' rel' h', q_move N q m = Ok (q', e) /\ inv q' (l ++ e) A' B' pub' rel' h' /\
      prefix pub pub' /\
      (q_service q <> SIdle -> A' = A /\ (q_service q' = SIdle -> e = [EvServiced])) /\
      (In EvServiced e -> q_service q = SRet) /\
      (q_push q <> PIdle -> B' = B /\ forall b, In (EvPushed b) e -> q_push q = PRet b) /\
      (q_push q' = PIdle -> q_push q = PIdle \/ exists b, e = [EvPushed b]).
  Proof.
    intros HI. assert (Hself : prefix pub pub) by (exists []; now rewrite app_nil_r).
    assert (Hnil : In (@EvServiced T) [] -> q_service q = SRet) by (intros []).
    assert (Hnil2 : forall x, In (@EvPushed T x) [] -> q_push q = PRet x) by (intros x []).
    destruct m as [c| | |]; cbn [q_move].
    - destruct (q_push q) eqn:Epc.
      2-9: exists q, [], A, B, pub, rel, h; rewrite app_nil_r; split; [reflexivity|]; split; [exact HI|]; repeat split; auto; try tauto; try congruence.
      eexists _, [EvPush c], A, rel, pub, rel, h. split; [reflexivity|].
      split; [now apply call_push_inv with (B := B)|]. repeat split; auto; try tauto; try congruence.
      intros [?|[]]; discriminate.
    - destruct (q_service q) eqn:Epc.
      2-10: exists q, [], A, B, pub, rel, h; rewrite app_nil_r; split; [reflexivity|]; split; [exact HI|]; repeat split; auto; try tauto; try congruence.
      eexists _, [EvService], (length (accepted l)), B, pub, rel, h. split; [reflexivity|].
      split; [now apply call_service_inv with (A := A)|]. repeat split; auto; try tauto; try congruence.
      + intros [?|[]]; discriminate.
      + intros b [?|[]]; discriminate.
    - destruct (push_step_inv _ _ _ _ _ _ _ HI) as (q' & e & pub' & E & H & Hp & He & Hs).
      exists q', e, A, B, pub', rel, h. split; [auto|]. split; [auto|]. split; [auto|].
      split; [intros Hne; split; auto; congruence|].
      split. { intros Hin. destruct e as [|e0 e]; [destruct Hin|]. destruct He as (b & _ & Eb); [discriminate|].
               rewrite Eb in Hin. destruct Hin as [?|[]]; discriminate. }
      split. { intros _. split; auto. intros b Hin. destruct e as [|e0 e]; [destruct Hin|].
               destruct He as (b' & Er & Eb); [discriminate|]. rewrite Eb in Hin. destruct Hin as [Hb|[]]. congruence. }
      unfold push_step in E. intros HId. destruct (q_push q) eqn:Epc; auto; right; injection E as <- <- || idtac; cbn in HId; try discriminate.
      + destruct (_ =? 0); discriminate.
      + destruct w as [[[s1 b1] s2] b2]. destruct (negb (b1 =? 0)); [|destruct (negb (b2 =? 0))].
        * destruct (set _ _ _); try discriminate. cbn [bind] in E. injection E as <- <-. discriminate.
        * destruct (set _ _ _); try discriminate. cbn [bind] in E. injection E as <- <-. discriminate.
        * injection E as <- <-. discriminate.
      + eauto.
    - destruct (service_step_inv _ _ _ _ _ _ _ HI) as (q' & e & rel' & h' & E & H & Hpc & Hin & Hid & Hno).
      exists q', e, A, B, pub, rel', h'. split; [auto|]. split; [auto|]. split; [auto|].
      split; [intros Hne; split; auto; intros Hq; destruct (Hid Hq); congruence|].
      split; [auto|]. split; [intros _; split; auto; intros b Hb; exfalso; eapply Hno; eauto|].
      intros Hq. left. congruence.
  Qed.

  Lemma run_inv : forall ms q l A B pub rel h, inv q l A B pub rel h ->
    exists q' es A' B' pub' rel' h', q_run N q ms = Ok (q', es) /\ inv q' (l ++ es) A' B' pub' rel' h'.
  Proof.
    induction ms as [|m ms IH]; intros q l A B pub rel h HI; cbn [q_run].
    - exists q, [], A, B, pub, rel, h. rewrite app_nil_r. auto.
    - destruct (move_inv q l A B pub rel h m HI) as (q1 & e & A1 & B1 & p1 & r1 & h1 & E & H1 & _).
      destruct (IH q1 (l ++ e) A1 B1 p1 r1 h1 H1) as (q2 & es & A2 & B2 & p2 & r2 & h2 & E2 & H2).
      rewrite E. cbn [bind]. rewrite E2. cbn [bind].
      exists q2, (e ++ es), A2, B2, p2, r2, h2. rewrite app_assoc. auto.
  Qed.

  (** what is published is accepted, or about to be *)
  Lemma pub_accepted q l A B pub rel h : inv q l A B pub rel h -> prefix pub (accepted l ++ in_progress l).
  Proof.
    intros HI. pose proof (i_push _ _ _ _ _ _ _ HI) as H. unfold accepted, in_progress.
    destruct (q_push q) as [| | | | | | | |[|]]; cbn in H; try (destruct H as [-> _]; eexists; reflexivity).
    destruct H as (x & -> & ->). exists []. now rewrite app_nil_r.
  Qed.
  Lemma accepted_pub q l A B pub rel h : inv q l A B pub rel h -> prefix (accepted l) pub.
  Proof.
    intros HI. pose proof (i_push _ _ _ _ _ _ _ HI) as H. unfold accepted.
    destruct (q_push q) as [| | | | | | | |[|]]; cbn in H; try (destruct H as [-> _]; exists []; now rewrite app_nil_r).
    destruct H as (x & _ & ->). eexists; reflexivity.
  Qed.
  Lemma visited_pub q l A B pub rel h : inv q l A B pub rel h ->
    exists k, rel <= k <= h /\ visited l = map Some (firstn k pub).
  Proof.
    intros HI. pose proof (i_service _ _ _ _ _ _ _ HI) as H. pose proof (i_h _ _ _ _ _ _ _ HI).
    pose proof (i_rel _ _ _ _ _ _ _ HI).
    destruct (q_service q) as [| |v|n|n v|todo n|c todo n|n|v|]; cbn in H; try (exists h; split; [lia|]; tauto).
    destruct H as (a & b & _). exists (h - 1). split; [lia|].
    destruct h as [|h']; [lia|]. rewrite Nat.sub_succ, Nat.sub_0_r.
    destruct (nth_error pub h') as [x|] eqn:Ex; [|apply nth_error_None in Ex; lia].
    rewrite (firstn_S_nth pub h' x Ex), map_app in b. now apply app_inj_tail in b.
  Qed.

  (** a Service that returns has handled what had been accepted when it was called *)
  Lemma run_service : forall ms q l A B pub rel h base q' es, inv q l A B pub rel h ->
    q_service q <> SIdle -> prefix base pub -> length base = A ->
    q_run N q ms = Ok (q', es) -> In EvServiced es -> prefix (map Some base) (visited (l ++ es)).
  Proof.
    induction ms as [|m ms IH]; intros q l A B pub rel h base q' es HI Hne Hb HA E Hin; cbn [q_run] in E.
    - injection E as <- <-. destruct Hin.
    - destruct (move_inv q l A B pub rel h m HI)
        as (q1 & e & A1 & B1 & p1 & r1 & h1 & E1 & H1 & Hp & Hs & HR & _).
      rewrite E1 in E. cbn [bind] in E. destruct (q_run N q1 ms) as [[q2 es2]| |] eqn:E2; try discriminate.
      cbn [bind] in E. injection E as <- <-.
      destruct (Hs Hne) as [-> Hid].
      assert (Hdone : In EvServiced e -> prefix (map Some base) (visited (l ++ e ++ es2))).
      { intros Hx. pose proof (i_service _ _ _ _ _ _ _ HI) as Hsi. rewrite (HR Hx) in Hsi.
        destruct Hsi as (a & b & c). rewrite !visited_app, b.
        destruct Hb as [rest ->]. rewrite firstn_app, (firstn_all2 base) by lia.
        rewrite map_app, <- app_assoc. eexists; reflexivity. }
      apply in_app_iff in Hin. destruct Hin as [Hx|Hin]; [auto|].
      rewrite app_assoc.
      destruct (q_service q1) eqn:Eq1.
      { rewrite <- app_assoc. apply Hdone. rewrite (Hid eq_refl). now left. }
      all: eapply IH; [exact H1|congruence| |exact HA|exact E2|exact Hin];
        destruct Hb as [u ->]; destruct Hp as [v ->]; rewrite <- app_assoc; eexists; reflexivity.
  Qed.

  (** a push that is rejected had found the queue full *)
  Lemma run_push : forall ms q l A B pub rel h q' l1 l2, inv q l A B pub rel h ->
    q_push q <> PIdle -> q_run N q ms = Ok (q', l1 ++ EvPushed false :: l2) ->
    (forall b, ~ In (EvPushed b) l1) -> N - 1 + B <= length (accepted l).
  Proof.
    induction ms as [|m ms IH]; intros q l A B pub rel h q' l1 l2 HI Hne E Hno; cbn [q_run] in E.
    - injection E as E1 E2. destruct l1; discriminate.
    - destruct (move_inv q l A B pub rel h m HI)
        as (q1 & e & A1 & B1 & p1 & r1 & h1 & E1 & H1 & Hp & Hs & HR & Hpu & Hid).
      rewrite E1 in E. cbn [bind] in E. destruct (q_run N q1 ms) as [[q2 es2]| |] eqn:E2; try discriminate.
      cbn [bind] in E. injection E as Eq El. destruct (Hpu Hne) as [-> Hret].
      assert (Hcase : (In (EvPushed false) e /\ q_push q = PRet false) \/ (forall b, ~ In (EvPushed b) e)).
      { destruct e as [|e0 [|? ?]].
        - right. intros b [].
        - destruct e0 as [?|[|]| | |]; try (right; intros b [Hb|[]]; discriminate).
          + exfalso. destruct l1 as [|x l1]; cbn in El; [discriminate|]. injection El as E3 E4. apply (Hno true). left. symmetry. exact E3 || now symmetry.
          + left. split; [now left|]. apply Hret. now left.
        - exfalso. clear - E1.
          destruct m; cbn in E1.
          + destruct (q_push q); discriminate.
          + destruct (q_service q); discriminate.
          + unfold push_step in E1. destruct (q_push q); try discriminate.
            destruct w as [[[s1 b1] s2] b2]. destruct (negb (b1 =? 0)); [|destruct (negb (b2 =? 0))];
              try discriminate; destruct (set _ _ _); discriminate.
          + unfold service_step in E1. destruct (q_service q) as [| | | | |[|i todo] n| | | |]; try discriminate.
            destruct (get _ _); try discriminate. cbn [bind] in E1. destruct (set _ _ _); discriminate. }
      destruct Hcase as [[_ Hr]|Hnone].
      + pose proof (i_push _ _ _ _ _ _ _ HI) as Hpi. rewrite Hr in Hpi. destruct Hpi as (a & b & c & d).
        unfold accepted. rewrite a. exact d.
      + assert (Hacc : accepted (l ++ e) = accepted l).
        { unfold accepted. rewrite pushes_app. destruct (pushes [] None l) as [acc cur]. cbn [fst].
          clear - Hnone. revert cur. induction e as [|x e IHe]; intros cur; auto. cbn [pushes].
          destruct x as [?|b| | |]; try (apply IHe; intros b Hb; apply (Hnone b); now right).
          exfalso. apply (Hnone b). now left. }
        rewrite <- Hacc.
        assert (Hpre : exists l1', l1 = e ++ l1' /\ es2 = l1' ++ EvPushed false :: l2).
        { clear - El Hnone. revert l1 El. induction e as [|x e IHe]; intros l1 El; [exists l1; auto|].
          destruct l1 as [|y l1]; cbn in El; injection El as -> El.
          - exfalso. apply (Hnone false). now left.
          - destruct (IHe (fun b Hb => Hnone b (or_intror Hb)) l1 El) as (l1' & -> & ->). exists l1'. auto. }
        destruct Hpre as (l1' & -> & ->).
        eapply IH; [exact H1| |exact E2|].
        * intros Hq. destruct (Hid Hq) as [?|(b & ->)]; [congruence|]. apply (Hnone b). now left.
        * intros b Hb. apply (Hno b). apply in_app_iff. now right.
  Qed.
End Inv.
