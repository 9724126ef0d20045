(** * Robustness and finite memory of the convolver, in any arithmetic *)
From Verif.Model Require Import Base Arith Juce Partitioning PartitionSchemes UniformPartitionedConvolver TimeDistributedNUPC Convolver.
From Verif.Spec Require Import Transform Buffers Signal Layout Memory.
From Verif.Proofs Require Import Lists ComplexAlg Butterfly FFTProof Blocks FloatProof Streams StreamsQ UPCProof UPCFloat NUPCFloat NUPCMake ConvolverProof
     ConvolverFloat Stamp Param.
From Verif.Props Require Import PartitionProps.

(** ** the run with stamps *)
Section StampRun.
  Context {A : arith} (R : rfft A) (HR : rfft_sized R).
  Notation TR := (stamp_rfft R).
  Lemma stamp_fwd_len k (d : list (sample Stamp)) : 0 < k -> length d = 2 * 2 ^ k -> length (rfft_fwd TR k d) = 2 * 2 ^ k.
  Proof. intros Hk Hd. cbn [rfft_fwd stamp_rfft]. rewrite repeat_length. apply (sized_fwd R HR); auto. now rewrite repeat_length. Qed.
  Lemma stamp_inv_len k (d : list (sample Stamp)) : 0 < k -> length d = 2 * 2 ^ k -> length (rfft_inv TR k d) = 2 * 2 ^ k.
  Proof. intros Hk Hd. cbn [rfft_inv stamp_rfft]. rewrite repeat_length. apply (sized_inv R HR); auto. now rewrite repeat_length. Qed.

  Lemma stamp_run w m (ir : audio Stamp) M spec b : let n := length ir in
    0 < w -> 0 < n -> block_of n m ir -> 0 < m -> (Z.of_nat m <= 2 ^ 24)%Z ->
    (requested (Z.of_nat M) (cs_internal spec) <= 2 ^ 30)%Z ->
    n <= length (cs_in spec) -> (forall i, In i (firstn n (cs_in spec)) -> i < w) ->
    n <= length (cs_out spec) -> (forall o, In o (firstn n (cs_out spec)) -> o < w) ->
    conv_block_size (Z.of_nat M) (cs_internal spec) = Ok b ->
    exists c, conv_make TR ir M spec = Ok c /\
      forall sessions, (forall blocks, In blocks sessions -> blocks_of w blocks) ->
      exists s' outs, feed_sessions (conv_process TR) conv_reset c sessions = Ok (s', outs) /\
        Forall2 (fun ins outs : list (audio Stamp) => length outs = length ins /\
          (forall i, i < length ins -> exists k, block_of w k (nth i ins []) /\ block_of w k (nth i outs [])) /\
          forall o, o < w -> length (channel o outs) = length (channel o ins) /\
            (stamped (chan_fun ins) -> forall t, t < length (channel o ins) ->
               since (S (t - settling m (Z.to_nat b))) (nth t (channel o outs) s0))) sessions outs.
  Proof.
    intros n Hw Hn Hsh Hm H24 Hreq Hi Hri Ho Hro Eb.
    destruct (C18_block_size (Z.of_nat M) (cs_internal spec) Hreq) as (b' & e' & Eb' & Ee & He & Hsup & _).
    rewrite Eb in Eb'. injection Eb' as <-.
    assert (exists e, b = Z.of_nat (2 ^ e)) as (e & Eb2).
    { exists (Z.to_nat e'). rewrite Nat2Z.inj_pow, Z2Nat.id by lia. exact Ee. }
    clear e' Ee He. subst b. rewrite Nat2Z.id. set (B := 2 ^ e) in *. pose proof (pow2_pos e : 0 < B) as HB.
    assert (Ek : next_pow2 (B * 2) = 2 ^ S e).
    { unfold next_pow2. f_equal. apply Nat.log2_up_unique; [lia|]. cbn [Nat.pred]. fold B. cbn [Nat.pow]. fold B. lia. }
    destruct Hsup as [results Hres]. destruct (PartitionProof.scheme_good (Z.of_nat B) (Z.of_nat m) results Hres) as (l & El & _); [lia|].
    destruct (@make_any Stamp stamp_zero TR stamp_fwd_len n m ir Hn Hn Hsh Hm H24 B (S e) l HB Ek El)
      as (a & l' & El' & Hnum & Hlo & b & nu & Ku & ds & Enu & Hk & HF & HKu & (HKl & HKo) & Hp & HBb & Hst).
    pose proof (@pieces_sound Stamp n m ir Hn Hn Hm B l' _ ds Hp) as Hds.
    set (off := Nat.min (Z.to_nat (pl_num a) * B) m) in *.
    set (Ist := @state Stamp TR n ir B b (S e) Ku off ds). set (O := @output Stamp TR ir B b (S e) Ku off ds).
    set (c := {| c_routing := @zeros Stamp n B; c_nupc := nu; c_spec := spec; c_channels := n; c_block := B;
                 c_num_samples := @num_samples Stamp ir |} : convolver Stamp).
    exists c. split.
    { unfold conv_make. eapply bind_eq; [exact Eb|]. cbv beta. rewrite Nat2Z.id. eapply bind_eq; [exact Enu|]. reflexivity. }
    intros sessions Hses.
    destruct (@sessions_genQ Stamp _ (@conv_process Stamp TR) (@conv_reset Stamp) w (fun _ => True)
                (@cst Stamp n B spec Ist) (@cout Stamp n spec O))
      with (sessions := sessions) (s := c) as (s' & outs & Ef & _ & HFo).
    - intros x T s k0 _ HT. refine (@conv_process_ok Stamp TR w n B spec Hn Hw HB Hi Ho Hri Hro Ist O _ x T s k0 HT).
      intros x0 T0 nu0 len H0.
      exact (@state_process Stamp stamp_zero TR stamp_fwd_len stamp_inv_len n ir Hn B b (S e) Ku off ds HB HBb Hk HF (proj1 HKu) Hds x0 T0 nu0 len H0).
    - intros x T s x' HT. eapply (@conv_reset_ok Stamp n B spec Ist); eauto.
      intros x0 T0 nu0 x1 H0.
      exact (@state_reset Stamp stamp_zero TR n ir Hn B b (S e) Ku off ds HB Hk HF (proj1 HKu) Hds x0 T0 nu0 x1 H0).
    - intros x. unfold c. repeat split; auto. cbn [c_routing]. rewrite zeros_mk. eauto. apply Hst.
    - intros blocks Hb bl Hbl. destruct (Hses blocks Hb bl Hbl) as (k0 & Hk0). eauto.
    - exists s', outs. split; [exact Ef|]. eapply Forall2_mono; [|exact HFo].
      intros ins os (H1 & H2 & H3). split; [exact H1|]. split.
      { intros i Hi'. destruct (H2 i Hi') as (k0 & _ & A1 & A2). exists k0. split; assumption. }
      intros o Hoo. destruct (H3 o Hoo) as [H4 H5]. split; [exact H4|]. intros Hx t Ht.
      destruct (H5 t Ht) as (f & Hf & ->). apply rmix_since. intros ch Hc.
      eapply nout_since with (B := B) (ds := ds) (l := l'); [..|exact (Hf ch Hc)]; eauto; try lia.
      + cbn [Nat.pow]. fold B. lia.
      + intros c0 i. apply Hx.
  Qed.
End StampRun.

(** ** lists in step *)
Inductive Forall3 {X Y Z} (P : X -> Y -> Z -> Prop) : list X -> list Y -> list Z -> Prop :=
| F3_nil : Forall3 P [] [] []
| F3_cons : forall x y z l l' l'', P x y z -> Forall3 P l l' l'' -> Forall3 P (x :: l) (y :: l') (z :: l'').
Lemma F3_split {X Y Z W} (P : X -> Y -> Z -> Prop) (P1 : W -> X -> Prop) (P2 : W -> Y -> Prop) (P3 : W -> Z -> Prop) l l' l'' :
  (forall x y z, P x y z -> exists p, P1 p x /\ P2 p y /\ P3 p z) -> Forall3 P l l' l'' ->
  exists ps, Forall2 P1 ps l /\ Forall2 P2 ps l' /\ Forall2 P3 ps l''.
Proof.
  intros H. induction 1 as [|x y z l l' l'' Hp _ (ps & H1 & H2 & H3)]; [exists []; repeat constructor|].
  destruct (H x y z Hp) as (p & G1 & G2 & G3). exists (p :: ps). repeat (constructor; auto).
Qed.
Lemma F3_join {X Y Z W} (P : X -> Y -> Z -> Prop) (P1 : W -> X -> Prop) (P2 : W -> Y -> Prop) (P3 : W -> Z -> Prop) ps l l' l'' :
  (forall p x y z, P1 p x -> P2 p y -> P3 p z -> P x y z) -> Forall2 P1 ps l -> Forall2 P2 ps l' -> Forall2 P3 ps l'' -> Forall3 P l l' l''.
Proof.
  intros H H1. revert l' l''. induction H1; intros m' m'' H2 H3; inversion H2; subst; inversion H3; subst; constructor; eauto.
Qed.
Lemma F3_nth {X Y Z} (P : X -> Y -> Z -> Prop) l l' l'' i d d' d'' : Forall3 P l l' l'' -> i < length l ->
  P (nth i l d) (nth i l' d') (nth i l'' d'').
Proof. intros H. revert i. induction H; intros [|i] Hi; cbn in *; try lia; auto. apply IHForall3. lia. Qed.
Lemma F3_length {X Y Z} (P : X -> Y -> Z -> Prop) l l' l'' : Forall3 P l l' l'' -> length l = length l' /\ length l = length l''.
Proof. induction 1; cbn; lia. Qed.
Lemma F3_app {X Y Z} (P : X -> Y -> Z -> Prop) l l' l'' m m' m'' : Forall3 P l l' l'' -> Forall3 P m m' m'' -> Forall3 P (l ++ m) (l' ++ m') (l'' ++ m'').
Proof. induction 1; cbn; auto. constructor; auto. Qed.

(** ** two runs side by side *)
Definition Pair (A : arith) : arith := {|
  sample := sample A * sample A; s0 := (s0, s0); s1 := (s1, s1);
  sadd := fun p q => (sadd (fst p) (fst q), sadd (snd p) (snd q));
  smul := fun p q => (smul (fst p) (fst q), smul (snd p) (snd q));
  ssub := fun p q => (ssub (fst p) (fst q), ssub (snd p) (snd q));
  sopp := fun p => (sopp (fst p), sopp (snd p));
  shalf := (shalf, shalf); sinvn := fun n => (sinvn n, sinvn n); scos := fun n => (scos n, scos n); ssin := fun n => (ssin n, ssin n);
  spow := fun w e => let a := spow (fst (fst w), fst (snd w)) e in let b := spow (snd (fst w), snd (snd w)) e in
                     ((fst a, fst b), (snd a, snd b)) |}.
Definition pair_rfft {A : arith} (R : rfft A) : rfft (Pair A) := {|
  rfft_fwd := fun k (l : list (sample (Pair A))) => combine (rfft_fwd R k (map fst l)) (rfft_fwd R k (map snd l)) : list (sample (Pair A));
  rfft_inv := fun k (l : list (sample (Pair A))) => combine (rfft_inv R k (map fst l)) (rfft_inv R k (map snd l)) : list (sample (Pair A)) |}.

Section Pairs.
  Context {A : arith} (R : rfft A) (HR : rfft_sized R).
  Notation P := (Pair A).
  Notation PR := (pair_rfft R).
  Notation TR := (stamp_rfft R).
  Definition Q1 (p : sample P) (x : sample A) : Prop := fst p = x.
  Definition Q2 (p : sample P) (x : sample A) : Prop := snd p = x.
  Lemma Q1_ok : respected Q1 Q1.
  Proof.
    split; unfold Q1; try reflexivity; cbn [sadd ssub smul sopp Pair fst snd]; try (intros; congruence).
    intros w w' e H. destruct H as [a b a' b' H H']. cbn. subst. destruct (spow (fst a, fst a') e); now constructor.
  Qed.
  Lemma Q2_ok : respected Q2 Q2.
  Proof.
    split; unfold Q2; try reflexivity; cbn [sadd ssub smul sopp Pair fst snd]; try (intros; congruence).
    intros w w' e H. destruct H as [a b a' b' H H']. cbn. subst. destruct (spow (snd a, snd a') e); now constructor.
  Qed.
  Lemma F2_fst l l' : Forall2 Q1 l l' -> l' = map fst l.
  Proof. induction 1 as [|x y l l' H _ ->]; cbn; auto. red in H. now subst. Qed.
  Lemma F2_snd l l' : Forall2 Q2 l l' -> l' = map snd l.
  Proof. induction 1 as [|x y l l' H _ ->]; cbn; auto. red in H. now subst. Qed.
  Lemma F2_combine1 l l' : length l = length l' -> Forall2 Q1 (combine l l') l.
  Proof. revert l'. induction l; intros [|y l'] E; cbn in *; try discriminate; constructor; [reflexivity|auto]. Qed.
  Lemma F2_combine2 l l' : length l = length l' -> Forall2 Q2 (combine l l') l'.
  Proof. revert l'. induction l; intros [|y l'] E; cbn in *; try discriminate; constructor; [reflexivity|auto]. Qed.
  Lemma Q1_rfft : rfft_respected Q1 PR R.
  Proof.
    split; intros k l l' H; apply F2_fst in H; subst l'; apply F2_combine1; [apply (blind_fwd R HR)|apply (blind_inv R HR)]; now rewrite !map_length.
  Qed.
  Lemma Q2_rfft : rfft_respected Q2 PR R.
  Proof.
    split; intros k l l' H; apply F2_snd in H; subst l'; apply F2_combine2; [apply (blind_fwd R HR)|apply (blind_inv R HR)]; now rewrite !map_length.
  Qed.

  (** equal, where the stamp is later than [T0] *)
  Variable T0 : nat.
  Definition Q3 (p : sample P) (a : sample Stamp) : Prop := since (S T0) a -> fst p = snd p.
  Definition Q3k (p : sample P) (a : sample Stamp) : Prop := fst p = snd p.
  Lemma older_since t a b : since t (older a b) -> since t a /\ since t b.
  Proof. destruct a, b; cbn; lia. Qed.
  Lemma Q3k_ok : respected Q3k Q3k.
  Proof.
    split; unfold Q3k; try reflexivity; cbn [sadd ssub smul sopp Pair fst snd]; try (intros; congruence).
    intros w w' e H. destruct H as [[a1 a2] b [a1' a2'] b' H H']. cbn in *. subst. constructor; reflexivity.
  Qed.
  Lemma Q3_ok : respected Q3 Q3k.
  Proof.
    split; try (apply Q3k_ok).
    - intros _. reflexivity.
    - intros x y x' y' H H' Hs. apply older_since in Hs as [S1 S2]. cbn. now rewrite (H S1), (H' S2).
    - intros x y x' y' H H' Hs. apply older_since in Hs as [S1 S2]. cbn. now rewrite (H S1), (H' S2).
    - intros x y x' y' H H' Hs. cbn in *. now rewrite (H Hs), H'.
  Qed.
  Lemma F2_equal (l : list (sample P)) : (forall p, In p l -> fst p = snd p) -> map fst l = map snd l.
  Proof. intros H. apply map_ext_in. auto. Qed.
  Lemma combine_same (l l' : list (sample A)) : l = l' -> forall p, In p (combine l l') -> fst p = snd p.
  Proof. intros <-. induction l; cbn; intros p H; [destruct H|]. destruct H as [<-|H]; auto. Qed.
  Lemma F2_const {X Y} (Q : X -> Y -> Prop) l n y : length l = n -> (forall x, In x l -> Q x y) -> Forall2 Q l (repeat y n).
  Proof. intros <- H. induction l; cbn; constructor; [apply H; now left|apply IHl; intros; apply H; now right]. Qed.
  Lemma Q3_all l l' : Forall2 Q3 l l' -> since (S T0) (oldest l') -> map fst l = map snd l.
  Proof.
    induction 1 as [|x y l l' H _ IH]; intros Hs; auto. cbn [map]. change (oldest (y :: l')) with (older y (oldest l')) in Hs.
    apply older_since in Hs as [S1 S2]. f_equal; auto.
  Qed.
  Lemma Q3k_all l (l' : list (sample Stamp)) : Forall2 Q3k l l' -> map fst l = map snd l.
  Proof. induction 1; cbn; f_equal; auto. Qed.
  Lemma comb_len (f : nat -> list (sample A) -> list (sample A)) (Hf : forall k (d d' : list (sample A)), length d = length d' -> length (f k d) = length (f k d')) k
        (l : list (sample P)) (z : list (sample A)) :
    length l = length z -> length (combine (f k (map fst l)) (f k (map snd l))) = length (f k z).
  Proof.
    intros E. rewrite combine_length, (Hf k (map fst l) z), (Hf k (map snd l) z) by (now rewrite map_length). apply Nat.min_id.
  Qed.
  Lemma Q3_rfft : rfft_respected Q3 PR TR.
  Proof.
    split; intros k l l' H.
    - apply F2_const.
      + refine (comb_len (rfft_fwd R) (blind_fwd R HR) k l _ _). now rewrite repeat_length, (F2_length H).
      + intros p Hp Hs. cbn [rfft_fwd pair_rfft] in Hp. eapply combine_same; [|exact Hp]. now rewrite (Q3_all l l' H Hs).
    - apply F2_const.
      + refine (comb_len (rfft_inv R) (blind_inv R HR) k l _ _). now rewrite repeat_length, (F2_length H).
      + intros p Hp Hs. cbn [rfft_inv pair_rfft] in Hp. eapply combine_same; [|exact Hp]. now rewrite (Q3_all l l' H Hs).
  Qed.
  Lemma Q3k_rfft : rfft_respected Q3k PR TR.
  Proof.
    split; intros k l l' H.
    - apply F2_const.
      + refine (comb_len (rfft_fwd R) (blind_fwd R HR) k l _ _). now rewrite repeat_length, (F2_length H).
      + intros p Hp. cbn [rfft_fwd pair_rfft] in Hp. eapply combine_same; [|exact Hp]. now rewrite (Q3k_all l l' H).
    - apply F2_const.
      + refine (comb_len (rfft_inv R) (blind_inv R HR) k l _ _). now rewrite repeat_length, (F2_length H).
      + intros p Hp. cbn [rfft_inv pair_rfft] in Hp. eapply combine_same; [|exact Hp]. now rewrite (Q3k_all l l' H).
  Qed.

  Definition G (x y : sample A) (a : sample Stamp) : Prop := since (S T0) a -> x = y.
  Notation G4 := (Forall3 (Forall3 (Forall3 (Forall3 G)))).
  Lemma G_split x y a : G x y a -> exists p, Q1 p x /\ Q2 p y /\ Q3 p a.
  Proof. intros H. exists (x, y). repeat split; auto. Qed.
  Lemma G_join p x y a : Q1 p x -> Q2 p y -> Q3 p a -> G x y a.
  Proof. unfold Q1, Q2, Q3, G. intros <- <-. auto. Qed.
  Lemma Rok {X Y} (Q : X -> Y -> Prop) r y : Rres Q r (Ok y) -> exists x, r = Ok x /\ Q x y.
  Proof. intros H. inversion H; subst; eauto. Qed.
  Lemma okR {X Y} (Q : X -> Y -> Prop) x r : Rres Q (Ok x) r -> exists y, r = Ok y /\ Q x y.
  Proof. intros H. inversion H; subst; eauto. Qed.
  Definition no_stamps (ir : audio A) : audio Stamp := map (map (fun _ => None : sample Stamp)) ir.

  (** the same convolver run twice, and run on stamps *)
  Lemma three_runs ir M spec c ct ins ins' inst st outst :
    conv_make R ir M spec = Ok c -> conv_make TR (no_stamps ir) M spec = Ok ct -> G4 ins ins' inst ->
    feed_sessions (conv_process TR) conv_reset ct inst = Ok (st, outst) ->
    exists s outs s' outs', feed_sessions (conv_process R) conv_reset c ins = Ok (s, outs) /\
      feed_sessions (conv_process R) conv_reset c ins' = Ok (s', outs') /\ G4 outs outs' outst.
  Proof.
    intros Ec Ect HG Et.
    assert (HI : exists irp : audio P, Forall2 (Forall2 Q1) irp ir /\ Forall2 (Forall2 Q2) irp ir /\ Forall2 (Forall2 Q3k) irp (no_stamps ir)).
    { eapply (F3_split (Forall3 (fun x y (_ : sample Stamp) => x = y))).
      - intros x y z H. eapply F3_split; [|exact H]. intros a b z0 <-. exists (a, a). repeat split.
      - unfold no_stamps. clear. induction ir as [|l ir IH]; cbn; constructor; auto. clear. induction l; cbn; constructor; auto. }
    destruct HI as (irp & I1 & I2 & I3).
    pose proof (p_conv_make Q3_ok Q3k_ok Q3k_rfft M spec I3) as M3. rewrite Ect in M3. apply Rok in M3 as (cp & Ecp & C3).
    pose proof (p_conv_make Q1_ok Q1_ok Q1_rfft M spec I1) as M1. rewrite Ecp, Ec in M1. apply okR in M1 as (c1 & E1 & C1). injection E1 as <-.
    pose proof (p_conv_make Q2_ok Q2_ok Q2_rfft M spec I2) as M2. rewrite Ecp, Ec in M2. apply okR in M2 as (c1 & E1 & C2). injection E1 as <-.
    assert (HB : exists inp : list (list (audio P)), Forall2 (Forall2 (Forall2 (Forall2 Q1))) inp ins /\
                 Forall2 (Forall2 (Forall2 (Forall2 Q2))) inp ins' /\ Forall2 (Forall2 (Forall2 (Forall2 Q3))) inp inst).
    { eapply F3_split; [|exact HG]. intros x1 y1 z1 H1. eapply F3_split; [|exact H1]. intros x2 y2 z2 H2.
      eapply F3_split; [|exact H2]. intros x3 y3 z3 H3. eapply F3_split; [|exact H3]. exact G_split. }
    destruct HB as (inp & B1 & B2 & B3).
    pose proof (p_feed_sessions (respected_in Q3_ok) Q3_rfft C3 B3) as F3. rewrite Et in F3. apply Rok in F3 as ([sp outp] & Ep & F3).
    pose proof (p_feed_sessions (respected_in Q1_ok) Q1_rfft C1 B1) as F1. rewrite Ep in F1. apply okR in F1 as ([s outs] & Es & F1).
    pose proof (p_feed_sessions (respected_in Q2_ok) Q2_rfft C2 B2) as F2. rewrite Ep in F2. apply okR in F2 as ([s' outs'] & Es' & F2).
    exists s, outs, s', outs'. split; [exact Es|]. split; [exact Es'|].
    inversion F1; subst. inversion F2; subst. inversion F3; subst.
    eapply F3_join; [|eassumption..]. intros p1 x1 y1 z1 J1 K1 L1. eapply F3_join; [|eassumption..]. intros p2 x2 y2 z2 J2 K2 L2.
    eapply F3_join; [|eassumption..]. intros p3 x3 y3 z3 J3 K3 L3. eapply F3_join; [|eassumption..]. exact G_join.
  Qed.
End Pairs.

(** ** success does not depend on the arithmetic *)
Section Blind.
  Context {A : arith} (R : rfft A) (HR : rfft_sized R).
  Notation TR := (stamp_rfft R).
  Definition Q0 (x : sample A) (a : sample Stamp) : Prop := True.
  Lemma Q0_ok : respected Q0 Q0.
  Proof. split; try (intros; exact I). intros w w' e H. destruct (spow w e), (spow w' e). constructor; exact I. Qed.
  Lemma F2_true {X Y} (l : list X) (l' : list Y) (Q : X -> Y -> Prop) : (forall x y, Q x y) -> length l = length l' -> Forall2 Q l l'.
  Proof. intros H. revert l'. induction l; intros [|y l'] E; cbn in *; try discriminate; constructor; auto. Qed.
  Lemma Q0_rfft : rfft_respected Q0 R TR.
  Proof.
    split; intros k l l' H; (apply F2_true; [exact (fun _ _ => I)|]); cbn [rfft_fwd rfft_inv stamp_rfft]; rewrite repeat_length;
      [apply (blind_fwd R HR)|apply (blind_inv R HR)]; now rewrite repeat_length, (F2_length H).
  Qed.
  Lemma Q0_none (ir : audio A) : Forall2 (Forall2 Q0) ir (no_stamps ir).
  Proof. induction ir as [|l ir IH]; cbn; constructor; auto. apply F2_true; [exact (fun _ _ => I)|now rewrite map_length]. Qed.
  Lemma no_stamps_block n m (ir : audio A) : block_of n m ir -> block_of n m (no_stamps ir).
  Proof.
    intros [H1 H2]. split; [unfold no_stamps; now rewrite map_length|]. intros c Hc. apply in_map_iff in Hc as (l & <- & Hl).
    rewrite map_length. now apply H2.
  Qed.
  Lemma Q0_block w k (b : audio A) (b' : audio Stamp) : Forall2 (Forall2 Q0) b b' -> block_of w k b <-> block_of w k b'.
  Proof.
    intros H. unfold block_of. rewrite (F2_length H). split; intros [H1 H2]; split; auto; clear H1.
    - induction H; cbn in *; intros c []; [subst; rewrite <- (F2_length H); apply H2; auto|apply IHForall2; auto].
    - induction H; cbn in *; intros c []; [subst; rewrite (F2_length H); apply H2; auto|apply IHForall2; auto].
  Qed.
  Lemma Q0_none_session (ins : list (audio A)) : Forall2 (Forall2 (Forall2 Q0)) ins (map no_stamps ins).
  Proof. induction ins; cbn; constructor; auto. apply Q0_none. Qed.
  Lemma Q0_none_sessions (ins : list (list (audio A))) : Forall2 (Forall2 (Forall2 (Forall2 Q0))) ins (map (map no_stamps) ins).
  Proof. induction ins; cbn; constructor; auto. apply Q0_none_session. Qed.
  Lemma F2_nth {X Y} (P : X -> Y -> Prop) l l' i d d' : Forall2 P l l' -> i < length l -> P (nth i l d) (nth i l' d').
  Proof. intros H. revert i. induction H; intros [|i] Hi; cbn in *; try lia; auto. apply IHForall2. lia. Qed.

  Lemma blind_make w m (ir : audio A) M spec : let n := length ir in
    0 < w -> 0 < n -> block_of n m ir -> 0 < m -> (Z.of_nat m <= 2 ^ 24)%Z ->
    (requested (Z.of_nat M) (cs_internal spec) <= 2 ^ 30)%Z ->
    n <= length (cs_in spec) -> (forall i, In i (firstn n (cs_in spec)) -> i < w) ->
    n <= length (cs_out spec) -> (forall o, In o (firstn n (cs_out spec)) -> o < w) ->
    exists c, conv_make R ir M spec = Ok c /\
      forall sessions, (forall blocks, In blocks sessions -> blocks_of w blocks) ->
      exists s' outs, feed_sessions (conv_process R) conv_reset c sessions = Ok (s', outs) /\
        Forall2 (Forall2 (fun b o => exists k, block_of w k b /\ block_of w k o)) sessions outs.
  Proof.
    intros n Hw Hn Hsh Hm H24 Hreq Hi Hri Ho Hro.
    destruct (C18_block_size (Z.of_nat M) (cs_internal spec) Hreq) as (b & e & Eb & _).
    destruct (stamp_run R HR w m (no_stamps ir) M spec b) as (ct & Ect & Hrun);
      try (unfold no_stamps; rewrite ?map_length; assumption); auto.
    { unfold no_stamps at 1. rewrite map_length. now apply no_stamps_block. }
    pose proof (p_conv_make Q0_ok Q0_ok Q0_rfft M spec (Q0_none ir)) as M0. rewrite Ect in M0. apply Rok in M0 as (c & Ec & C0).
    exists c. split; [exact Ec|]. intros sessions Hs.
    destruct (Hrun (map (map no_stamps) sessions)) as (st & outst & Et & HF).
    { intros bs Hbs b0 Hb0. apply in_map_iff in Hbs as (bs' & <- & Hin). apply in_map_iff in Hb0 as (b1 & <- & Hin1).
      destruct (Hs bs' Hin b1 Hin1) as (k & Hk). exists k. now apply no_stamps_block. }
    pose proof (p_feed_sessions (respected_in Q0_ok) Q0_rfft C0 (Q0_none_sessions sessions)) as F0. rewrite Et in F0.
    apply Rok in F0 as ([s' outs] & E & F0). exists s', outs. split; [exact E|]. inversion F0 as [? ? ? ? _ F1]; subst. clear - HF F1.
    revert outst HF F1. generalize (eq_refl (map (map no_stamps) sessions)). generalize (map (map no_stamps) sessions) at 2 3.
    intros ts Ets outst HF F1. revert ts Ets outst HF F1. revert outs.
    induction sessions as [|ins sessions IH]; intros outs ts Ets outst HF F1; cbn [map] in Ets; subst ts; inversion HF; subst; inversion F1; subst; constructor.
    - match goal with H : length _ = length (map no_stamps ins) /\ _ |- _ => destruct H as (HL & HS & _) end. clear - HL HS H4.
      rewrite map_length in *.
      assert (E : length x = length ins) by (rewrite (F2_length H4); exact HL). clear HL.
      assert (G : forall i, i < length ins -> exists k, block_of w k (nth i ins []) /\ block_of w k (nth i x [])).
      { intros i Hi. destruct (HS i Hi) as (k & K1 & K2). exists k. split.
        - apply (Q0_block w k _ _ (F2_nth _ _ _ i [] [] (Q0_none_session ins) Hi)). exact K1.
        - apply (Q0_block w k _ _ (F2_nth _ _ _ i [] [] H4 ltac:(lia))). exact K2. }
      clear - E G. revert x E G. induction ins as [|b ins IH]; intros [|o x] E G; cbn in E; try discriminate; constructor.
      + apply (G 0). cbn. lia.
      + apply IH; [lia|]. intros i Hi. apply (G (S i)). cbn. lia.
    - eapply IH; eauto.
  Qed.
End Blind.

(** ** stamping a session *)
Section Stamping.
  Context {A : arith}.
  Definition stamp_block (T : nat) (b : audio A) : audio Stamp := map (fun l => tab (length l) (fun i => Some (S (T + i)) : sample Stamp)) b.
  Fixpoint stamp_blocks (T : nat) (bs : list (audio A)) : list (audio Stamp) :=
    match bs with [] => [] | b :: t => stamp_block T b :: stamp_blocks (T + num_samples b) t end.
  Lemma stamp_block_of n m T (b : audio A) : block_of n m b -> block_of n m (stamp_block T b).
  Proof.
    intros [H1 H2]. split; [unfold stamp_block; now rewrite map_length|]. intros c Hc. apply in_map_iff in Hc as (l & <- & Hl).
    rewrite tab_length. now apply H2.
  Qed.
  Lemma stamp_blocks_of w : forall bs T, blocks_of w bs -> blocks_of w (stamp_blocks T bs).
  Proof.
    induction bs as [|b bs IH]; intros T H x Hx; cbn [stamp_blocks] in Hx; [destruct Hx|]. destruct Hx as [<-|Hx].
    - destruct (H b (or_introl eq_refl)) as (m & Hm). exists m. now apply stamp_block_of.
    - eapply IH; [|exact Hx]. intros y Hy. apply H. now right.
  Qed.
  Lemma block_samples w m (b : audio A) : 0 < w -> block_of w m b -> num_samples b = m.
  Proof. intros Hw [H1 H2]. destruct b as [|l b]; cbn in *; [lia|]. apply H2. now left. Qed.
  Lemma channel_stamps w : 0 < w -> forall bs T c, blocks_of w bs ->
    channel c (stamp_blocks T bs) = tab (length (channel c bs)) (fun i => Some (S (T + i)) : sample Stamp).
  Proof.
    intros Hw. induction bs as [|b bs IH]; intros T c H; [reflexivity|]. cbn [stamp_blocks].
    destruct (H b (or_introl eq_refl)) as (m & Hm). assert (Ht : blocks_of w bs) by (intros y Hy; apply H; now right).
    change (channel c (stamp_block T b :: stamp_blocks (T + num_samples b) bs)) with (nth c (stamp_block T b) [] ++ channel c (stamp_blocks (T + num_samples b) bs)).
    change (channel c (b :: bs)) with (nth c b [] ++ channel c bs).
    rewrite IH, app_length, tab_app by auto. f_equal.
    - unfold stamp_block. destruct (Nat.lt_ge_cases c (length b)) as [Hc|Hc].
      + rewrite (nth_indep _ [] (tab (length (@nil (sample A))) (fun i => Some (S (T + i))))) by (now rewrite map_length).
        exact (map_nth (fun l => tab (length l) (fun i => Some (S (T + i)) : sample Stamp)) b [] c).
      + rewrite !nth_overflow by (rewrite ?map_length; auto). reflexivity.
    - destruct (Nat.lt_ge_cases c w) as [Hc|Hc].
      + rewrite (block_samples w m b Hw Hm). destruct Hm as [H1 H2]. rewrite (H2 (nth c b [])) by (apply nth_In; lia).
        apply tab_ext. intros. do 2 f_equal. lia.
      + assert (E : channel c bs = []).
        { clear - Ht Hc. induction bs as [|b bs IH]; auto. change (channel c (b :: bs)) with (nth c b [] ++ channel c bs).
          rewrite IH by (intros y Hy; apply Ht; now right). destruct (Ht b (or_introl eq_refl)) as (m & H1 & _).
          rewrite nth_overflow by lia. reflexivity. }
        rewrite E. reflexivity.
  Qed.
  Lemma stamps_stamped w bs : 0 < w -> blocks_of w bs -> stamped (chan_fun (stamp_blocks 0 bs)).
  Proof.
    intros Hw H c i. unfold chan_fun. rewrite (channel_stamps w) by auto. destruct (Nat.lt_ge_cases i (length (channel c bs))).
    - rewrite tab_nth by auto. cbn. lia.
    - rewrite nth_overflow by (now rewrite tab_length). exact I.
  Qed.

  Lemma F3_of_nth {X Y Z} (P : X -> Y -> Z -> Prop) d d' d'' : forall l l' l'', length l = length l' -> length l = length l'' ->
    (forall i, i < length l -> P (nth i l d) (nth i l' d') (nth i l'' d'')) -> Forall3 P l l' l''.
  Proof.
    induction l as [|x l IH]; intros [|y l'] [|z l''] E E' H; cbn in E, E'; try discriminate; constructor.
    - apply (H 0). cbn. lia.
    - apply IH; [lia..|]. intros i Hi. apply (H (S i)). cbn. lia.
  Qed.
  Lemma shape_length (b b' : audio A) c : same_shape b b' -> length (nth c b []) = length (nth c b' []).
  Proof. intros H. pose proof (map_nth (@length (sample A)) b [] c) as E. pose proof (map_nth (@length (sample A)) b' [] c) as E'. rewrite <- E, <- E', H. reflexivity. Qed.
  Lemma shape_channels (b b' : audio A) : same_shape b b' -> length b = length b'.
  Proof. intros H. rewrite <- (map_length (@length _) b), H. apply map_length. Qed.
  Lemma shape_block (b b' : audio A) w m : same_shape b b' -> block_of w m b -> block_of w m b'.
  Proof.
    intros H [H1 H2]. split; [now rewrite <- (shape_channels _ _ H)|]. intros c Hc. apply (In_nth _ _ []) in Hc as (i & Hi & <-).
    rewrite <- (shape_length _ _ i H). apply H2, nth_In. now rewrite (shape_channels _ _ H).
  Qed.

  Lemma stamps_related T0 w : 0 < w -> forall bs bs' T, blocks_of w bs -> same_shapes bs bs' ->
    (forall c, c < w -> forall i, T0 <= T + i -> nth i (channel c bs) s0 = nth i (channel c bs') s0) ->
    Forall3 (Forall3 (Forall3 (G T0))) bs bs' (stamp_blocks T bs).
  Proof.
    intros Hw bs bs' T Hb Hs. revert T. induction Hs as [|b b' bs bs' Hsh Hs IH]; intros T H; cbn [stamp_blocks]; constructor.
    - destruct (Hb b (or_introl eq_refl)) as (m & Hm). destruct Hm as [L1 L2].
      apply (F3_of_nth _ [] [] []); [now apply shape_channels|unfold stamp_block; now rewrite map_length|]. intros c Hc.
      assert (E : nth c (stamp_block T b) [] = tab (length (nth c b [])) (fun i => Some (S (T + i)) : sample Stamp)).
      { unfold stamp_block. rewrite (nth_indep _ [] (tab (length (@nil (sample A))) (fun i => Some (S (T + i))))) by (now rewrite map_length).
        exact (map_nth (fun l => tab (length l) (fun i => Some (S (T + i)) : sample Stamp)) b [] c). }
      rewrite E. apply (F3_of_nth _ s0 s0 None); [now apply shape_length|now rewrite tab_length|].
      intros i Hi Hsi. rewrite tab_nth in Hsi by auto. cbn [since] in Hsi.
      specialize (H c ltac:(lia) i ltac:(lia)).
      change (channel c (b :: bs)) with (nth c b [] ++ channel c bs) in H. change (channel c (b' :: bs')) with (nth c b' [] ++ channel c bs') in H.
      rewrite !app_nth1 in H by (auto; now rewrite <- (shape_length _ _ c Hsh)). exact H.
    - destruct (Hb b (or_introl eq_refl)) as (m & Hm). rewrite (block_samples w m b Hw Hm). apply IH; [intros y Hy; apply Hb; now right|].
      intros c Hc i Hi. specialize (H c Hc (m + i) ltac:(lia)).
      change (channel c (b :: bs)) with (nth c b [] ++ channel c bs) in H. change (channel c (b' :: bs')) with (nth c b' [] ++ channel c bs') in H.
      destruct Hm as [L1 L2]. assert (E : length (nth c b []) = m) by (apply L2, nth_In; lia).
      rewrite !app_nth2, <- (shape_length _ _ c Hsh), E in H by (rewrite <- ?(shape_length _ _ c Hsh), E; lia).
      replace (m + i - m) with i in H by lia. exact H.
  Qed.

  Definition old_block (b : audio A) : audio Stamp := map (map (fun _ => Some 0 : sample Stamp)) b.
  Lemma old_related T0 bs bs' : same_shapes bs bs' -> Forall3 (Forall3 (Forall3 (G T0))) bs bs' (map old_block bs).
  Proof.
    induction 1 as [|b b' bs bs' Hsh Hs IH]; cbn [map]; constructor; auto.
    revert b' Hsh. induction b as [|l b IHb]; intros [|l' b'] E; try discriminate; constructor.
    - unfold same_shape in E. cbn in E. injection E as E _. apply (F3_of_nth _ s0 s0 (Some 0)); auto; [now rewrite map_length|].
      intros i Hi Hs'. exfalso. pose proof (map_nth (fun _ : sample A => Some 0 : sample Stamp) l s0 i) as E'. cbv beta in E'.
      change (since (S T0) (nth i (map (fun _ : sample A => Some 0 : sample Stamp) l) (Some 0 : sample Stamp))) in Hs'.
      rewrite E' in Hs'. cbn in Hs'. lia.
    - apply IHb. unfold same_shape in *. cbn in E. now injection E.
  Qed.
  Lemma old_block_of n m b : block_of n m b -> block_of n m (old_block b).
  Proof.
    intros [H1 H2]. split; [unfold old_block; now rewrite map_length|]. intros c Hc. apply in_map_iff in Hc as (l & <- & Hl).
    rewrite map_length. now apply H2.
  Qed.
  Lemma F3_channel {X} (P : sample A -> sample A -> X -> Prop) (c : nat) : forall (o o' : list (audio A)) (t : list (list (list X))),
    Forall3 (Forall3 (Forall3 P)) o o' t -> Forall3 P (channel c o) (channel c o') (concat (map (fun b => nth c b []) t)).
  Proof.
    induction 1 as [|b b' d o o' t H _ IH]; [constructor|]. change (channel c (b :: o)) with (nth c b [] ++ channel c o).
    change (channel c (b' :: o')) with (nth c b' [] ++ channel c o'). cbn [map concat]. apply F3_app; auto.
    destruct (Nat.lt_ge_cases c (length b)) as [Hc|Hc]; [now apply F3_nth|].
    destruct (F3_length _ _ _ _ H) as [E1 E2]. rewrite !nth_overflow by lia. constructor.
  Qed.
End Stamping.
