(** * TimeDistributedNUPC: running, without laws of arithmetic

    The inner convolvers are known only by an invariant and by what they put out. *)
From Verif.Model Require Import Base Arith Juce ComplexBuffer SplitBlock CircularBuffer
     UniformPartitionedConvolver TimeDistributedUPC TimeDistributedUPCMulti TimeDistributedNUPC.
From Verif.Spec Require Import Transform Buffers Signal.
From Verif.Proofs Require Import Lists Blocks Delay Streams UPCProof.

(** ** loops that handle a block in several rounds *)
Section LoopQ.
  Context {A : arith} {St : Type}.
  Variables (n : nat) (Hn : 0 < n) (round : St * audio A * nat -> res (St * audio A * nat)).
  Variables (Inv : nat -> St -> Prop) (x : nat -> nat -> sample A) (Q : nat -> nat -> sample A -> Prop).
  Hypothesis round_ok : forall T s size done f,
    Inv T s -> done < size ->
    (forall c i, c < n -> done <= i < size -> f c i = x c (T + (i - done))) ->
    exists s' todo y, 0 < todo <= size - done /\
      round (s, mk n size f, done)
      = Ok (s', mk n size (fun c i => if (done <=? i) && (i <? done + todo)
                                      then y c (i - done) else f c i), done + todo) /\
      (forall c i, c < n -> i < todo -> Q c (T + i) (y c i)) /\ Inv (T + todo) s'.

  Lemma loopQ_steps : forall fuel T u size done f,
    size - done <= fuel -> done <= size -> Inv T u ->
    (forall c i, c < n -> done <= i < size -> f c i = x c (T + (i - done))) ->
    exists u' d y, while_ fuel (fun st => snd st <? num_samples (snd (fst st))) round (u, mk n size f, done)
            = Ok (u', mk n size (fun c i => if done <=? i then y c (i - done) else f c i), d) /\
      (forall c i, c < n -> i < size - done -> Q c (T + i) (y c i)) /\
      Inv (T + (size - done)) u'.
  Proof.
    induction fuel; intros T u size done f Hfuel Hds HT Hf.
    - assert (done = size) by lia. subst done. exists u, size, (fun _ _ => s0). split; [|split].
      + rewrite while_end by (cbn [fst snd]; rewrite num_samples_mk by auto; apply Nat.ltb_irrefl).
        do 3 f_equal. apply mk_ext. intros. bcase; auto; lia.
      + intros. lia.
      + now rewrite Nat.sub_diag, Nat.add_0_r.
    - destruct (Nat.eq_dec done size) as [->|Hne].
      { exists u, size, (fun _ _ => s0). split; [|split].
        + rewrite while_end by (cbn [fst snd]; rewrite num_samples_mk by auto; apply Nat.ltb_irrefl).
          do 3 f_equal. apply mk_ext. intros. bcase; auto; lia.
        + intros. lia.
        + now rewrite Nat.sub_diag, Nat.add_0_r. }
      destruct (round_ok T u size done f) as (u1 & todo & y1 & Htodo & E & HQ1 & HT1); auto; [lia|].
      erewrite while_step; [|cbn [fst snd]; rewrite num_samples_mk by auto; apply Nat.ltb_lt; lia|exact E].
      edestruct (IHfuel (T + todo) u1 size (done + todo)) as (u' & d & y2 & E' & HQ2 & HT'); [lia|lia|exact HT1| |].
      2:{ exists u', d, (fun c i => if i <? todo then y1 c i else y2 c (i - todo)). split; [|split].
          - etransitivity; [exact E'|]. do 3 f_equal. apply mk_ext. intros c i Hc Hi.
            bcase; try lia; auto; f_equal; lia.
          - intros c i Hc Hi. cbv beta. destruct (Nat.ltb_spec i todo); [now apply HQ1|].
            replace (T + i) with (T + todo + (i - todo)) by lia. apply HQ2; auto. lia.
          - replace (T + (size - done)) with (T + todo + (size - (done + todo))) by lia. exact HT'. }
      intros c i Hc Hi. cbv beta. bcase; try lia. rewrite Hf by lia. f_equal. lia.
  Qed.

  Lemma loopQ T s m : Inv T s ->
    exists s' d y, while_ m (fun st => snd st <? num_samples (snd (fst st))) round
                        (s, mk n m (fun c i => x c (T + i)), 0)
                 = Ok (s', mk n m y, d) /\
      (forall c i, c < n -> i < m -> Q c (T + i) (y c i)) /\ Inv (T + m) s'.
  Proof.
    intros HT. destruct (loopQ_steps m T s m 0 (fun c i => x c (T + i))) as (s' & d & y & E & HQ & H); auto; try lia.
    { intros. f_equal. lia. }
    exists s', d, y. split; [|split].
    - rewrite E. do 3 f_equal. apply mk_ext. intros. cbn [Nat.leb]. now rewrite Nat.sub_0_r.
    - intros. apply HQ; auto. lia.
    - now rewrite Nat.sub_0_r in H.
  Qed.
End LoopQ.

Section NUPC.
  Context {A : arith} (R : rfft A) {D : Type}.
  Notation S := (sample A).
  Notation sig := (nat -> nat -> S).
  Variables (n B : nat) (ds : list D).
  Hypothesis (Hn : 0 < n) (HB : 0 < B).
  (** the convolver of the head of the response *)
  Variables (IU : sig -> nat -> upc A -> Prop) (OU : sig -> nat -> nat -> S -> Prop).
  Hypothesis HU : forall x T u m, IU x T u ->
    exists u' y, upc_process R u (mk n m (fun c i => x c (T + i))) = Ok (u', mk n m y) /\
      (forall c i, c < n -> i < m -> OU x c (T + i) (y c i)) /\ IU x (T + m) u'.
  Hypothesis HUr : forall x T u x', IU x T u -> IU x' 0 (upc_reset u).
  (** the sub-convolvers *)
  Variables (IS : D -> sig -> nat -> multi A -> Prop) (OS : D -> sig -> nat -> nat -> S -> Prop).
  Hypothesis HS : forall d x T mu, In d ds -> IS d x T mu ->
    exists mu' y, multi_process mu (mk n B (fun c i => x c (T + i))) = Ok (mu', mk n B y) /\
      (forall c i, c < n -> i < B -> OS d x c (T + i) (y c i)) /\ IS d x (T + B) mu'.
  Hypothesis HSr : forall d x T mu x', In d ds -> IS d x T mu -> IS d x' 0 (multi_reset mu).

  (** [v] is [a] plus outputs of the sub-convolvers [l], one block before time [t] *)
  Fixpoint accs (x : sig) (l : list D) (c t : nat) (a v : S) : Prop :=
    match l with
    | [] => v = a
    | d :: l' => exists y, OS d x c (t - B) y /\ accs x l' c t (sadd a y) v
    end.
  (** ... that is what the ring holds for time [t] *)
  Definition rcell (x : sig) (c t : nat) (v : S) : Prop := if t <? B then v = s0 else accs x ds c t s0 v.
  Definition nout (x : sig) (c t : nat) (v : S) : Prop :=
    exists vu, OU x c t vu /\
      match ds with [] => v = vu | _ => exists vr, rcell x c t vr /\ v = sadd vu vr end.

  Lemma run_subs_ok x T sv head : head < 2 * B ->
    (forall c i, c < n -> i < B -> sv c i = x c (T + i)) ->
    forall l ms pr r, incl l ds -> Forall2 (fun d => IS d x T) l ms ->
    exists ms' pr' r', nupc_run_subs ms (repeat (2 * B) (length l)) (mk n B sv) (mk n B pr) (mk n (2 * B) r) head
      = Ok (ms', mk n B pr', mk n (2 * B) r') /\
      (forall c q, c < n -> q < 2 * B ->
         if rdist (2 * B) head q <? B
         then accs x l c (T + B + rdist (2 * B) head q) (r c q) (r' c q) else r' c q = r c q) /\
      Forall2 (fun d => IS d x (T + B)) l ms'.
  Proof.
    intros Hh Hsv. induction l as [|d l IH]; intros ms pr r Hl HF2.
    - inversion HF2; subst ms. exists [], pr, r. split; [reflexivity|]. split; [|constructor].
      intros c q Hc Hq. cbn [accs]. destruct (_ <? _); reflexivity.
    - inversion HF2 as [|? m ? ms0 Hm HF3]; subst.
      cbn [length repeat nupc_run_subs].
      rewrite whole_mk by auto. unfold blk_copy_from. rewrite blk_apply_mk by (cbn [v_start v_len]; lia).
      cbn [bind v_start v_len].
      match goal with |- context [multi_process m ?bl] =>
        replace bl with (mk n B (fun c i => x c (T + i))) end.
      2: { apply mk_ext. intros c i Hc Hi. rewrite Nat.min_id, Nat.add_0_l, Nat.sub_0_r. unfold f_copy.
           rewrite Hsv by auto. bcase; auto; lia. }
      destruct (HS d x T m (Hl d (or_introl eq_refl)) Hm) as (m' & y & Em & Hy & Hm').
      rewrite Em. cbn [bind]. rewrite num_samples_mk by auto. rewrite cbuf_next_ok by lia. cbn [bind].
      replace ((head + 2 * B) mod (2 * B)) with head.
      2: { replace (head + 2 * B) with (head + 1 * (2 * B)) by lia.
           rewrite Nat.mod_add by lia. now rewrite Nat.mod_small. }
      unfold sb_add_from. rewrite ring_apply_mk by lia. cbn [bind].
      edestruct IH as (ms' & pr' & r' & E & Hr' & HF4); [intros ? ?; apply Hl; now right|exact HF3|].
      exists (m' :: ms'), pr', r'. split; [|split].
      + rewrite E. reflexivity.
      + intros c q Hc Hq. specialize (Hr' c q Hc Hq). cbv beta in Hr'.
        destruct (Nat.ltb_spec (rdist (2 * B) head q) B); auto. cbn [accs].
        exists (y c (rdist (2 * B) head q)). split; [|exact Hr'].
        replace (T + B + rdist (2 * B) head q - B) with (T + rdist (2 * B) head q) by lia. now apply Hy.
      + constructor; auto.
  Qed.

  (** the state after [T = m B + col] samples of [x] *)
  Definition nst (x : sig) (T : nat) (nu : nupc A) : Prop :=
    exists m col, T = m * B + col /\ col < B /\ n_block nu = B /\ n_collected nu = col /\
      IU x T (n_upc nu) /\
      Forall2 (fun d => IS d x (m * B)) ds (n_tdupcs nu) /\
      n_delays nu = repeat (2 * B) (length ds) /\
      (ds <> [] ->
         (exists sv, n_saved nu = mk n B sv /\ forall c i, c < n -> i < col -> sv c i = x c (m * B + i)) /\
         (exists pr, n_proc nu = mk n B pr) /\ n_head nu < 2 * B /\
         exists r, n_ring nu = mk n (2 * B) r /\
           forall c j, c < n -> j < 2 * B ->
             if j <? B + col then r c ((n_head nu + j) mod (2 * B)) = s0
             else rcell x c (m * B + (j - B)) (r c ((n_head nu + j) mod (2 * B)))).

  Lemma nst_round x T nu size done f :
    nst x T nu -> done < size ->
    (forall c i, c < n -> done <= i < size -> f c i = x c (T + (i - done))) ->
    exists nu' todo y, 0 < todo <= size - done /\
      nupc_round R (nu, mk n size f, done)
      = Ok (nu', mk n size (fun c i => if (done <=? i) && (i <? done + todo)
                                      then y c (i - done) else f c i), done + todo) /\
      (forall c i, c < n -> i < todo -> nout x c (T + i) (y c i)) /\ nst x (T + todo) nu'.
  Proof.
    intros (m & col & ET & Hcol & E1 & E2 & Hu & HF2 & Ed & Hsubs) Hds1 Hf.
    set (todo := Nat.min (size - done) (B - col)).
    assert (Htodo : 0 < todo <= size - done) by lia. assert (HtP : col + todo <= B) by lia.
    unfold nupc_round. rewrite E1, E2. unfold usub at 1. destruct (Nat.leb_spec col B); [|lia]. cbn [bind].
    rewrite num_samples_mk by auto. fold todo.
    rewrite whole_mk, view_sub_ok by (auto; cbn [v_len]; lia). cbn [bind v_start].
    rewrite view_read_mk by (cbn [v_start v_len]; lia). cbn [bind v_start v_len].
    unfold umod. destruct (Nat.eqb_spec B 0); [lia|]. cbn [bind].
    set (sub := mk n todo (fun c i => f c (0 + done + i))).
    assert (Esub : sub = mk n todo (fun c i => x c (T + i))).
    { apply mk_ext. intros c i Hc Hi. rewrite Hf by lia. f_equal. lia. }
    destruct (HU x T (n_upc nu) todo Hu) as (u' & yu & Eu & Hyu & Hu').
    rewrite <- Esub in Eu.
    (* the block written back *)
    assert (Hout : forall g,
      blk_copy_from {| v_start := 0 + done; v_len := todo |} (mk n size f) (mk n todo g)
      = Ok (mk n size (fun c i => if (done <=? i) && (i <? done + todo) then g c (i - done) else f c i))).
    { intros g. unfold blk_copy_from. rewrite blk_apply_mk by (cbn [v_start v_len]; lia).
      cbn [v_start v_len]. f_equal. apply mk_ext. intros c i Hc Hi. rewrite Nat.min_id, !Nat.add_0_l.
      destruct ((done <=? i) && (i <? done + todo)); auto. }
    assert (Dds : ds = [] \/ ds <> []) by (destruct ds; [left|right]; congruence).
    destruct Dds as [Eds|Eds].
    { (* no sub-convolvers *)
      assert (Et : n_tdupcs nu = []) by (rewrite Eds in HF2; now inversion HF2).
      rewrite Et. cbn [length Nat.ltb Nat.leb bind].
      rewrite Eu. cbn [bind]. rewrite Hout. cbn [bind].
      eexists. exists todo, yu. split; [auto|]. split; [reflexivity|]. split.
      { intros c i Hc Hi. exists (yu c i). split; [now apply Hyu|]. now rewrite Eds. }
      destruct (Nat.eq_dec (col + todo) B) as [Efull|Npart].
      - exists (m + 1), 0. cbn [n_block n_collected n_upc n_tdupcs n_delays]. rewrite Efull, Nat.mod_same by lia.
        do 4 (split; [lia|]). split; [exact Hu'|]. split; [rewrite Eds; constructor|]. split; [auto|]. congruence.
      - exists m, (col + todo). cbn [n_block n_collected n_upc n_tdupcs n_delays].
        rewrite Nat.mod_small by lia.
        do 4 (split; [lia|]). split; [exact Hu'|]. split; [rewrite Eds; constructor|]. split; [auto|]. congruence. }
    assert (Hnout : forall c t vu vr, OU x c t vu -> rcell x c t vr -> nout x c t (sadd vu vr)).
    { intros c t vu vr H1 H2. exists vu. split; auto. destruct ds; [congruence|]. eauto. }
    destruct Hsubs as ((sv & Esv & Hsv) & (pr & Epr) & Hhead & (r & Er & Hr)); [congruence|].
    assert (Hlen : 0 < length (n_tdupcs nu)).
    { inversion HF2; [congruence|cbn; lia]. }
    destruct (Nat.ltb_spec 0 (length (n_tdupcs nu))) as [_|]; [|lia].
    rewrite Esv, whole_mk by auto. rewrite num_samples_mk by auto.
    rewrite view_sub_ok by (cbn [v_len]; lia). cbn [bind v_start].
    unfold sub at 1. unfold blk_copy_from at 1. rewrite blk_apply_mk by (cbn [v_start v_len]; lia).
    cbn [bind v_start v_len].
    set (sv' := fun c i => if (0 + col <=? i) && (i <? 0 + col + Nat.min (B - col) todo)
                           then f_copy (sv c i) (f c (0 + done + (i - (0 + col)))) else sv c i).
    assert (Hsv' : forall c i, c < n -> i < col + todo -> sv' c i = x c (m * B + i)).
    { intros c i Hc Hi. unfold sv'. rewrite !Nat.add_0_l. rewrite (Nat.min_r _ todo) by lia.
      destruct (Nat.ltb_spec i col).
      - bcase; try lia. auto.
      - bcase; try lia. unfold f_copy. rewrite Hf by lia. f_equal. lia. }
    fold sv'.
    set (p := (n_head nu + (B + col)) mod (2 * B)).
    assert (Hp : p < 2 * B) by (apply Nat.mod_upper_bound; lia).
    destruct (Nat.eq_dec (col + todo) B) as [Efull|Npart].
    - (* the block is complete *)
      rewrite Efull, Nat.mod_same by lia. cbn [Nat.eqb].
      destruct (run_subs_ok x (m * B) sv' (n_head nu) Hhead) with (l := ds) (ms := n_tdupcs nu) (pr := pr) (r := r)
        as (ms' & pr' & r1 & Ers & Hrs & HF3); auto.
      { intros c i Hc Hi. apply Hsv'; auto. lia. }
      { apply incl_refl. }
      rewrite Ed, Epr, Er.
      rewrite Ers. cbn [bind]. rewrite num_samples_mk by auto. rewrite cbuf_next_ok by lia. cbn [bind].
      rewrite Eu. cbn [bind]. rewrite num_samples_mk by auto. rewrite cbuf_next_ok by lia. cbn [bind].
      replace (((n_head nu + B) mod (2 * B) + (col + 0)) mod (2 * B)) with p.
      2: { rewrite Nat.add_mod_idemp_l by lia. unfold p. f_equal. lia. }
      assert (Hr1 : forall c j, c < n -> j < 2 * B ->
                let v := r1 c ((n_head nu + j) mod (2 * B)) in
                if j <? B then rcell x c (m * B + B + j) v
                else if j <? B + col then v = s0 else rcell x c (m * B + (j - B)) v).
      { intros c j Hc Hj v. specialize (Hr c j Hc Hj).
        specialize (Hrs c ((n_head nu + j) mod (2 * B)) Hc ltac:(apply Nat.mod_upper_bound; lia)).
        pose proof (rdist_mod (2 * B) (n_head nu) j ltac:(lia) Hj) as Erd.
        rewrite (Nat.mod_small (n_head nu)) in Erd by auto. rewrite Erd in Hrs. fold v in Hrs.
        destruct (Nat.ltb_spec j B).
        - destruct (Nat.ltb_spec j (B + col)); [|lia]. rewrite Hr in Hrs.
          unfold rcell. destruct (Nat.ltb_spec (m * B + B + j) B); [lia|]. exact Hrs.
        - rewrite Hrs. exact Hr. }
      set (fo := yu).
      destruct (ring_sub_mk (@sadd A) (2 * B) p todo n r1 fo) as (t & Et1 & Et2 & Et3); [lia..|].
      rewrite Et1. cbn [bind]. unfold sb_add_to.
      match goal with |- context [sb_apply_to sadd t ?ra ?rb] =>
        change (sb_apply_to sadd t ra rb) with (sb_apply_to sadd t (mk n (2 * B) r1) (mk n todo fo)) end.
      rewrite Et2. cbn [bind]. rewrite Et3. cbn [bind].
      rewrite Hout.
      cbn [bind]. eexists. exists todo, (fun c i => sadd (fo c i) (r1 c ((p + i) mod (2 * B)))). split; [auto|]. split; [reflexivity|]. split.
      { intros c i Hc Hi. cbv beta. apply Hnout; [now apply Hyu|]. unfold p. rewrite Nat.add_mod_idemp_l by lia.
        specialize (Hr1 c (B + col + i) Hc ltac:(lia)). cbv zeta in Hr1.
        replace (n_head nu + (B + col) + i) with (n_head nu + (B + col + i)) by lia.
        destruct (Nat.ltb_spec (B + col + i) B); [lia|]. destruct (Nat.ltb_spec (B + col + i) (B + col)); [lia|].
        replace (T + i) with (m * B + (B + col + i - B)) by lia. exact Hr1. }
      exists (m + 1), 0. cbn [n_block n_collected n_upc n_tdupcs n_delays n_saved n_proc n_head n_ring].
      do 4 (split; [lia|]). split; [exact Hu'|]. split.
      { replace ((m + 1) * B) with (m * B + B) by lia. exact HF3. }
      split; [auto|]. intros _. split; [eexists; split; [reflexivity|lia]|]. split; [eauto|].
      split; [apply Nat.mod_upper_bound; lia|].
      eexists. split; [reflexivity|]. intros c j Hc Hj. cbv beta.
      rewrite Nat.add_mod_idemp_l by lia. rewrite Nat.add_0_r.
      destruct (Nat.ltb_spec j B).
      + destruct (Nat.lt_ge_cases j col).
        * replace ((n_head nu + B + j) mod (2 * B)) with ((n_head nu + (B + col) + (2 * B - col + j)) mod (2 * B)).
          2: { replace (n_head nu + (B + col) + (2 * B - col + j)) with (n_head nu + B + j + 1 * (2 * B)) by lia.
               apply Nat.mod_add. lia. }
          unfold p. rewrite rdist_mod by lia. destruct (Nat.ltb_spec (2 * B - col + j) todo); [lia|].
          replace (n_head nu + (B + col) + (2 * B - col + j)) with (n_head nu + (B + j) + 1 * (2 * B)) by lia.
          rewrite Nat.mod_add by lia. specialize (Hr1 c (B + j) Hc ltac:(lia)). cbv zeta in Hr1.
          destruct (Nat.ltb_spec (B + j) B); [lia|]. destruct (Nat.ltb_spec (B + j) (B + col)); [exact Hr1|lia].
        * replace (n_head nu + B + j) with (n_head nu + (B + col) + (j - col)) by lia.
          unfold p. rewrite rdist_mod by lia. destruct (Nat.ltb_spec (j - col) todo); [|lia]. reflexivity.
      + replace ((n_head nu + B + j) mod (2 * B)) with ((n_head nu + (j - B)) mod (2 * B)).
        2: { replace (n_head nu + B + j) with (n_head nu + (j - B) + 1 * (2 * B)) by lia. now rewrite Nat.mod_add by lia. }
        assert (Erd : rdist (2 * B) p ((n_head nu + (j - B)) mod (2 * B)) = j - col).
        { replace ((n_head nu + (j - B)) mod (2 * B)) with ((n_head nu + (B + col) + (j - col)) mod (2 * B)).
          2: { replace (n_head nu + (B + col) + (j - col)) with (n_head nu + (j - B) + 1 * (2 * B)) by lia.
               now rewrite Nat.mod_add by lia. }
          apply rdist_mod; lia. }
        rewrite Erd. destruct (Nat.ltb_spec (j - col) todo); [lia|]. specialize (Hr1 c (j - B) Hc ltac:(lia)). cbv zeta in Hr1.
        destruct (Nat.ltb_spec (j - B) B); [|lia]. replace ((m + 1) * B + (j - B)) with (m * B + B + (j - B)) by lia. exact Hr1.
    - rewrite (Nat.mod_small (col + todo)) by lia. destruct (Nat.eqb_spec (col + todo) 0); [lia|]. cbn [bind].
      rewrite Eu. cbn [bind]. rewrite Er, num_samples_mk by auto. rewrite cbuf_next_ok by lia. cbn [bind].
      replace ((n_head nu + (col + B)) mod (2 * B)) with p by (unfold p; f_equal; lia).
      set (fo := yu).
      destruct (ring_sub_mk (@sadd A) (2 * B) p todo n r fo) as (t & Et1 & Et2 & Et3); [lia..|].
      rewrite Et1. cbn [bind]. unfold sb_add_to.
      match goal with |- context [sb_apply_to sadd t ?ra ?rb] =>
        change (sb_apply_to sadd t ra rb) with (sb_apply_to sadd t (mk n (2 * B) r) (mk n todo fo)) end.
      rewrite Et2. cbn [bind]. rewrite Et3. cbn [bind].
      rewrite Hout.
      cbn [bind]. eexists. exists todo, (fun c i => sadd (fo c i) (r c ((p + i) mod (2 * B)))). split; [auto|]. split; [reflexivity|]. split.
      { intros c i Hc Hi. cbv beta. apply Hnout; [now apply Hyu|]. unfold p. rewrite Nat.add_mod_idemp_l by lia.
        specialize (Hr c (B + col + i) Hc ltac:(lia)).
        replace (n_head nu + (B + col) + i) with (n_head nu + (B + col + i)) by lia.
        destruct (Nat.ltb_spec (B + col + i) (B + col)); [lia|].
        replace (T + i) with (m * B + (B + col + i - B)) by lia. exact Hr. }
      exists m, (col + todo). cbn [n_block n_collected n_upc n_tdupcs n_delays n_saved n_proc n_head n_ring].
      do 4 (split; [lia|]). split; [exact Hu'|]. split; [exact HF2|].
      split; [auto|]. intros _. split; [eexists; split; [reflexivity|exact Hsv']|]. split; [eauto|].
      split; [auto|].
      eexists. split; [reflexivity|]. intros c j Hc Hj. cbv beta.
      destruct (Nat.lt_ge_cases j (B + col)) as [Hlo|Hhi].
      + assert (Erd : rdist (2 * B) p ((n_head nu + j) mod (2 * B)) = B - col + j).
        { replace ((n_head nu + j) mod (2 * B)) with ((n_head nu + (B + col) + (B - col + j)) mod (2 * B)).
          2: { replace (n_head nu + (B + col) + (B - col + j)) with (n_head nu + j + 1 * (2 * B)) by lia.
               now rewrite Nat.mod_add by lia. }
          apply rdist_mod; lia. }
        rewrite Erd. destruct (Nat.ltb_spec (B - col + j) todo); [lia|]. specialize (Hr c j Hc Hj).
        destruct (Nat.ltb_spec j (B + col)); [|lia]. destruct (Nat.ltb_spec j (B + (col + todo))); [exact Hr|lia].
      + assert (Erd : rdist (2 * B) p ((n_head nu + j) mod (2 * B)) = j - (B + col)).
        { replace (n_head nu + j) with (n_head nu + (B + col) + (j - (B + col))) by lia. apply rdist_mod; lia. }
        rewrite Erd. specialize (Hr c j Hc Hj). destruct (Nat.ltb_spec j (B + col)); [lia|].
        destruct (Nat.ltb_spec j (B + (col + todo))); destruct (Nat.ltb_spec (j - (B + col)) todo); try lia; auto.
  Qed.

  Lemma nupc_process_ok x T nu m : nst x T nu ->
    exists nu' y, nupc_process R nu (mk n m (fun c i => x c (T + i))) = Ok (nu', mk n m y) /\
      (forall c i, c < n -> i < m -> nout x c (T + i) (y c i)) /\ nst x (T + m) nu'.
  Proof.
    intros HT. unfold nupc_process. rewrite num_samples_mk by auto.
    destruct (loopQ n Hn (nupc_round R) (nst x) x (nout x)) with (T := T) (s := nu) (m := m)
      as (nu' & d & y & E & HQ & H); auto.
    { intros. now apply nst_round. }
    exists nu', y. split; auto. eapply bind_eq; [exact E|]. reflexivity.
  Qed.

  Lemma nupc_reset_ok x T nu x' : nst x T nu -> nst x' 0 (nupc_reset nu).
  Proof.
    intros (m & col & ET & Hcol & E1 & E2 & Hu & HF2 & Ed & Hsubs).
    exists 0, 0. unfold nupc_reset. cbn [n_block n_collected n_upc n_tdupcs n_delays n_saved n_proc n_head n_ring].
    do 4 (split; [lia|]). split; [eapply HUr; eauto|]. split.
    { assert (G : forall l ms, incl l ds -> Forall2 (fun d => IS d x (m * B)) l ms -> Forall2 (fun d => IS d x' 0) l (map multi_reset ms)).
      { intros l ms Hl HF3. induction HF3 as [|d mu l ms Hm HF3 IH]; cbn [map]; constructor.
        - eapply HSr; eauto. apply Hl. now left.
        - apply IH. intros ? ?; apply Hl. now right. }
      apply G; [apply incl_refl|exact HF2]. }
    split; [auto|]. intros H. destruct (Hsubs H) as ((sv & Esv & Hsv) & (pr & Epr) & Hhead & (r & Er & Hr)).
    rewrite Esv, Epr, Er, !audio_clear_mk.
    split; [eexists; split; [reflexivity|lia]|]. split; [eauto|]. split; [auto|].
    eexists. split; [reflexivity|]. intros c j Hc Hj. cbv beta. destruct (Nat.ltb_spec j (B + 0)); auto.
    unfold rcell. destruct (Nat.ltb_spec (0 * B + (j - B)) B); auto. lia.
  Qed.

  (** new *)
  Lemma nst_new x u ms : IU x 0 u -> Forall2 (fun d => IS d x 0) ds ms ->
    nst x 0 {| n_upc := u; n_tdupcs := ms; n_block := B; n_collected := 0;
               n_saved := zeros n (match ms with [] => 0 | _ => B end); n_delays := repeat (2 * B) (length ds);
               n_proc := zeros n (match ms with [] => 0 | _ => B end);
               n_ring := zeros n (match ms with [] => 0 | _ => 2 * B end); n_head := 0 |}.
  Proof.
    intros Hu HF2. exists 0, 0. cbn [n_block n_collected n_upc n_tdupcs n_delays n_saved n_proc n_head n_ring].
    do 4 (split; [lia|]). split; [exact Hu|]. split; [exact HF2|]. split; [reflexivity|]. intros Hne.
    destruct ms as [|mu ms0]; [inversion HF2; congruence|]. rewrite !zeros_mk.
    split; [eexists; split; [reflexivity|lia]|]. split; [eauto|]. split; [lia|].
    eexists. split; [reflexivity|]. intros c j Hc Hj. cbv beta. destruct (Nat.ltb_spec j (B + 0)); auto.
    unfold rcell. destruct (Nat.ltb_spec (0 * B + (j - B)) B); auto. lia.
  Qed.
End NUPC.
