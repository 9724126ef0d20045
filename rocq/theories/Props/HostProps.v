(** * C79: what is heard does not depend on the host *)
From Coq Require Import ZArith Reals Lra Lia.
From Verif.Model Require Import Base Arith ArithReal ArithSingle ArithMod Juce Float32 SmoothedValue Partitioning PartitionSchemes
     UniformPartitionedConvolver TimeDistributedNUPC Convolver ConvolutionEngine Loader.
From Verif.Spec Require Import Transform RealFFT Signal Routing Engine Loading Together Rounded Memory Precision PrecisionScheme PrecisionEngine.
From Verif.Proofs Require Import ComplexAlg Lists Blocks Streams EngineProof EngineInv EngineCalm EngineRoom EngineRun RealFFTProof SingleProof Norms SingleRoots SingleReal.
From Verif.Props Require Import PartitionProps ConvolverProps EngineProps WholeProps TogetherProps PrecisionProps PrecisionSchemeProps MemoryProps
     PrecisionEngineProps.
Local Open Scope nat_scope.

(** One host, from the construction of its engine: it has made the calls [l], other threads have done [env]; the convolver delivered
    last is number [i], and nothing is loaded after it; since then the blocks [bs] have gone through the engine, as many samples as a
    fade can last.  [s] is what it passed to prepare last, [e] the engine before [bs]. *)
Definition settled {A : arith} (R : rfft A) (w : nat) (env : list (list (action (convolver_if R)))) (l : list (op (convolver_if R)))
           (s : process_spec) (e : engine (convolver_if R)) (i : nat) (bs : list (audio A)) : Prop :=
  let I := convolver_if R in
  legal I w (fun _ => True) None l /\ last_spec None l = Some s /\ (exists outs, eng_run I (eng_new I env) l = Ok (e, outs)) /\
  (forall h, delivers env l h -> exists m ir M sp, well_made R w m ir M sp (h_cv I h)) /\
  unhurried (eng_new I env) l /\ no_loads e /\ latest None (e_log I e) = Some i /\
  fits w (ps_max_block s) bs /\ exists b, engine_bounds s = Ok b /\ settling_time b (ps_max_block s) <= total bs.

Lemma beyond' {A : arith} w (blocks : list (audio A)) c : blocks_of w blocks -> w <= c -> channel c blocks = [].
Proof.
  intros H Hc. unfold channel. induction blocks as [|b t IH]; [reflexivity|].
  cbn [map concat]. rewrite IH by (intros b' Hb; apply H; right; exact Hb).
  destruct (H b (or_introl eq_refl)) as (m & Lb & _). rewrite nth_overflow by (rewrite Lb; exact Hc). reflexivity.
Qed.
Lemma mixed_alike {A : arith} w n h inputs outputs (blocks blocks' : list (audio A)) o : blocks_of w blocks -> blocks_of w blocks' ->
  (forall i, i < w -> channel i blocks = channel i blocks') -> mixed n h inputs outputs blocks o = mixed n h inputs outputs blocks' o.
Proof.
  intros H1 H2 H. assert (HA : forall i, channel i blocks = channel i blocks').
  { intros i. destruct (Nat.lt_ge_cases i w) as [L|L]; [apply H, L|]. rewrite (beyond' w blocks i H1 L), (beyond' w blocks' i H2 L). reflexivity. }
  unfold mixed. rewrite HA. apply tab_ext. intros t _. apply ssum_ext. intros c _. rewrite HA. reflexivity.
Qed.
Lemma all_blocks {A : arith} (R : rfft A) w env l s e i bs rest : settled R w env l s e i bs -> fits w (ps_max_block s) rest ->
  blocks_of w (blocks_in (convolver_if R) l ++ bs ++ rest).
Proof.
  intros (Hl & _ & _ & _ & _ & _ & _ & Hf & _) Hr x Hx. apply in_app_iff in Hx as [Hx|Hx]; [eapply legal_blocks; eauto|].
  apply in_app_iff in Hx as [Hx|Hx]; [exact (fits_blocks w _ bs Hf x Hx)|exact (fits_blocks w _ rest Hr x Hx)].
Qed.
Lemma mixed_alike_length {A : arith} w (a b : list (audio A)) : 0 < w -> blocks_of w a -> blocks_of w b ->
  (forall i, i < w -> channel i a = channel i b) -> total a = total b.
Proof. intros Hw H1 H2 H. rewrite <- (channel_total w 0 a Hw H1), <- (channel_total w 0 b Hw H2). now rewrite (H 0 Hw). Qed.

(** Two hosts, with other block sizes, other announced block sizes, sampling rates and schedules, other responses before, restarts
    and fades, whose engines have come to play convolvers of the same response and routing.  If the same samples have gone into both
    since the beginning, the same samples come out of both: from the length of the response after both have settled, the outputs
    are equal, sample for sample. *)
Theorem C79_hosts_agree : forall (A : arith), arith_laws A -> forall R : rfft A, rfft_ok R ->
  let I := convolver_if R in
  forall w, 0 < w ->
  forall env1 l1 s1 e1 i1 bs1, settled R w env1 l1 s1 e1 i1 bs1 -> forall env2 l2 s2 e2 i2 bs2, settled R w env2 l2 s2 e2 i2 bs2 ->
  exists h1 h2, delivers env1 l1 h1 /\ h_id I h1 = i1 /\ delivers env2 l2 h2 /\ h_id I h2 = i2 /\
  forall m ir M1 sp1 M2 sp2, well_made R w m ir M1 sp1 (h_cv I h1) -> well_made R w m ir M2 sp2 (h_cv I h2) ->
  cs_in sp1 = cs_in sp2 -> cs_out sp1 = cs_out sp2 ->
  forall rest1 rest2, fits w (ps_max_block s1) rest1 -> fits w (ps_max_block s2) rest2 ->
  let past1 := blocks_in I l1 ++ bs1 in let past2 := blocks_in I l2 ++ bs2 in
  (forall c, c < w -> channel c (past1 ++ rest1) = channel c (past2 ++ rest2)) ->
  exists e1' before1 outs1 e2' before2 outs2,
    eng_run I e1 (map (Process I) (bs1 ++ rest1)) = Ok (e1', before1 ++ outs1) /\ length before1 = length bs1 /\ length outs1 = length rest1 /\
    eng_run I e2 (map (Process I) (bs2 ++ rest2)) = Ok (e2', before2 ++ outs2) /\ length before2 = length bs2 /\ length outs2 = length rest2 /\
    forall o T, o < w -> total past1 + m <= T -> total past2 + m <= T ->
      nth (T - total past1) (channel o outs1) s0 = nth (T - total past2) (channel o outs2) s0.
Proof.
  intros A L R HR I w Hw env1 l1 s1 e1 i1 bs1 S1 env2 l2 s2 e2 i2 bs2 S2.
  pose proof S1 as (L1 & P1 & (o1 & E1) & D1 & U1 & N1 & Z1 & F1 & b1 & B1 & T1).
  pose proof S2 as (L2 & P2 & (o2 & E2) & D2 & U2 & N2 & Z2 & F2 & b2 & B2 & T2).
  destruct (C52_last_response_is_heard A L R HR w Hw env1 l1 s1 e1 b1 o1 L1 P1 E1 D1 U1 N1 B1 i1 Z1 bs1 F1 T1) as (h1 & Dh1 & I1 & H1).
  destruct (C52_last_response_is_heard A L R HR w Hw env2 l2 s2 e2 b2 o2 L2 P2 E2 D2 U2 N2 B2 i2 Z2 bs2 F2 T2) as (h2 & Dh2 & I2 & H2).
  exists h1, h2. do 4 (split; [assumption|]). intros m ir M1 sp1 M2 sp2 W1 W2 Ei Eo rest1 rest2 G1 G2 past1 past2 HC.
  destruct (H1 m ir M1 sp1 W1 rest1 G1) as (f1 & a1 & c1 & R1 & La1 & Lc1 & K1).
  destruct (H2 m ir M2 sp2 W2 rest2 G2) as (f2 & a2 & c2 & R2 & La2 & Lc2 & K2).
  exists f1, a1, c1, f2, a2, c2. do 6 (split; [assumption|]). intros o T Ho HT1 HT2.
  specialize (K1 o Ho). specialize (K2 o Ho). fold past1 in K1. fold past2 in K2.
  pose proof (all_blocks R w env1 l1 s1 e1 i1 bs1 rest1 S1 G1) as X1. pose proof (all_blocks R w env2 l2 s2 e2 i2 bs2 rest2 S2 G2) as X2.
  fold I in X1, X2. unfold past1, past2 in HC. rewrite <- !app_assoc in HC.
  rewrite Ei, Eo, (mixed_alike w _ _ _ _ _ _ o X1 X2) in K1 by exact HC.
  assert (Y : forall (x y : list (sample A)) p q k d, skipn m x = skipn p y -> q + m <= k -> p = q + m -> nth (k - q) x d = nth k y d).
  { intros x y p q k d HXY Hk ->. apply (f_equal (fun z => nth (k - q - m) z d)) in HXY. rewrite !nth_skipn' in HXY.
    replace (m + (k - q - m)) with (k - q) in HXY by lia. replace (q + m + (k - q - m)) with k in HXY by lia. exact HXY. }
  rewrite (Y _ _ _ (total past1) T s0 K1 HT1 eq_refl), (Y _ _ _ (total past2) T s0 K2 HT2 eq_refl). reflexivity.
Qed.
Print Assumptions C79_hosts_agree.

(** In [float]: they differ by at most the sum of the errors of the two convolvers (C61), at the peak of the input. *)
Theorem C79_hosts_agree_in_float : forall pow (Rf : rfft (SingleWith pow)), rfft_sized Rf -> forall delta1 tau1 delta2 tau2,
  let I := convolver_if Rf in
  forall w, 0 < w ->
  forall env1 l1 s1 e1 i1 bs1, settled Rf w env1 l1 s1 e1 i1 bs1 -> forall env2 l2 s2 e2 i2 bs2, settled Rf w env2 l2 s2 e2 i2 bs2 ->
  exists h1 h2, delivers env1 l1 h1 /\ h_id I h1 = i1 /\ delivers env2 l2 h2 /\ h_id I h2 = i2 /\
  forall m (ir : audio Rarith) M1 sp1 M2 sp2, @well_made (SingleWith pow) Rf w m ir M1 sp1 (h_cv I h1) -> @well_made (SingleWith pow) Rf w m ir M2 sp2 (h_cv I h2) ->
  precise Rf delta1 tau1 m M1 sp1 -> precise Rf delta2 tau2 m M2 sp2 -> cs_in sp1 = cs_in sp2 -> cs_out sp1 = cs_out sp2 ->
  forall rest1 rest2, fits w (ps_max_block s1) rest1 -> fits w (ps_max_block s2) rest2 ->
  let past1 := blocks_in I l1 ++ bs1 in let past2 := blocks_in I l2 ++ bs2 in
  (forall c, c < w -> channel c (past1 ++ rest1) = channel c (past2 ++ rest2)) ->
  exists e1' before1 outs1 e2' before2 outs2,
    eng_run I e1 (map (Process I) (bs1 ++ rest1)) = Ok (e1', before1 ++ outs1) /\ length before1 = length bs1 /\ length outs1 = length rest1 /\
    eng_run I e2 (map (Process I) (bs2 ++ rest2)) = Ok (e2', before2 ++ outs2) /\ length before2 = length bs2 /\ length outs2 = length rest2 /\
    forall X, peak_below X (past1 ++ rest1) ->
    forall o T, o < w -> total past1 + m <= T -> total past2 + m <= T -> T < total (past1 ++ rest1) ->
      (Rabs (nth (T - total past1) (channel o outs1) 0 - nth (T - total past2) (channel o outs2) 0) <=
       convolver_error delta1 tau1 m M1 ir sp1 X o + convolver_error delta2 tau2 m M2 ir sp2 X o)%R.
Proof.
  intros pow Rf HR delta1 tau1 delta2 tau2 I w Hw env1 l1 s1 e1 i1 bs1 S1 env2 l2 s2 e2 i2 bs2 S2. set (F := SingleWith pow) in *.
  pose proof S1 as (L1 & P1 & (o1 & E1) & D1 & U1 & N1 & Z1 & F1 & b1 & B1 & T1).
  pose proof S2 as (L2 & P2 & (o2 & E2) & D2 & U2 & N2 & Z2 & F2 & b2 & B2 & T2).
  destruct (C64_last_response_is_heard pow Rf HR delta1 tau1 w Hw env1 l1 s1 e1 b1 o1 L1 P1 E1 D1 U1 N1 B1 i1 Z1 bs1 F1 T1) as (h1 & Dh1 & I1 & H1).
  destruct (C64_last_response_is_heard pow Rf HR delta2 tau2 w Hw env2 l2 s2 e2 b2 o2 L2 P2 E2 D2 U2 N2 B2 i2 Z2 bs2 F2 T2) as (h2 & Dh2 & I2 & H2).
  exists h1, h2. do 4 (split; [assumption|]). intros m ir M1 sp1 M2 sp2 W1 W2 Q1 Q2 Ei Eo rest1 rest2 G1 G2 past1 past2 HC.
  destruct (H1 m ir M1 sp1 W1 Q1 rest1 G1) as (f1 & a1 & c1 & R1 & La1 & Lc1 & K1).
  destruct (H2 m ir M2 sp2 W2 Q2 rest2 G2) as (f2 & a2 & c2 & R2 & La2 & Lc2 & K2).
  exists f1, a1, c1, f2, a2, c2. do 6 (split; [assumption|]). intros X HX o T Ho HT1 HT2 HT.
  assert (X1 : @blocks_of F w (past1 ++ rest1)) by (unfold past1; rewrite <- app_assoc; exact (all_blocks Rf w env1 l1 s1 e1 i1 bs1 rest1 S1 G1)).
  assert (X2 : @blocks_of F w (past2 ++ rest2)) by (unfold past2; rewrite <- app_assoc; exact (all_blocks Rf w env2 l2 s2 e2 i2 bs2 rest2 S2 G2)).
  assert (TT : total (past1 ++ rest1) = total (past2 ++ rest2)) by exact (@mixed_alike_length F w _ _ Hw X1 X2 HC).
  assert (Ta : forall a b : list (audio F), total (a ++ b) = total a + total b) by (intros; unfold total; rewrite map_app; apply list_sum_app).
  assert (T1' : m <= T - total past1 < total rest1) by (pose proof (Ta past1 rest1); lia).
  assert (T2' : m <= T - total past2 < total rest2) by (pose proof (Ta past2 rest2); lia).
  assert (HX2 : peak_below X (past2 ++ rest2)).
  { intros c t. destruct (Nat.lt_ge_cases c w) as [Lc|Lc]; [|].
    - specialize (HX c t). assert (Ec : @channel Rarith c (past1 ++ rest1) = @channel Rarith c (past2 ++ rest2)) by exact (HC c Lc). rewrite Ec in HX. exact HX.
    - specialize (HX c t). assert (Ec : @channel Rarith c (past1 ++ rest1) = []) by exact (@beyond' Rarith w _ c X1 Lc).
      assert (Ec2 : @channel Rarith c (past2 ++ rest2) = []) by exact (@beyond' Rarith w _ c X2 Lc). rewrite Ec in HX. rewrite Ec2. exact HX. }
  specialize (K1 X ltac:(rewrite app_assoc; exact HX) o _ Ho T1'). specialize (K2 X ltac:(rewrite app_assoc; exact HX2) o _ Ho T2').
  rewrite app_assoc in K1, K2. fold past1 in K1. fold past2 in K2.
  assert (EM : @mixed Rarith (length ir) (fun c => nth c ir []) (cs_in sp1) (cs_out sp1) (past1 ++ rest1) o =
               @mixed Rarith (length ir) (fun c => nth c ir []) (cs_in sp2) (cs_out sp2) (past2 ++ rest2) o).
  { rewrite Ei, Eo. exact (@mixed_alike Rarith w _ _ _ _ _ _ o X1 X2 HC). }
  set (y1 := @mixed Rarith (length ir) (fun c => nth c ir []) (cs_in sp1) (cs_out sp1) (past1 ++ rest1) o) in *.
  set (y2 := @mixed Rarith (length ir) (fun c => nth c ir []) (cs_in sp2) (cs_out sp2) (past2 ++ rest2) o) in *.
  assert (V1 : total past1 + (T - total past1) = T) by lia. assert (V2 : total past2 + (T - total past2) = T) by lia.
  match goal with |- (Rabs (?a - ?b) <= _)%R => set (x := a) in *; set (z := b) in * end.
  assert (S1' : (Rabs (x - nth (total past1 + (T - total past1)) y1 0) <= convolver_error delta1 tau1 m M1 ir sp1 X o)%R) by exact K1.
  assert (S2' : (Rabs (z - nth (total past2 + (T - total past2)) y2 0) <= convolver_error delta2 tau2 m M2 ir sp2 X o)%R) by exact K2.
  rewrite V1, EM in S1'. rewrite V2 in S2'. set (y := nth T y2 0%R) in *. clearbody x z y. clear - S1' S2'.
  replace (x - z)%R with ((x - y) + - (z - y))%R by (unfold Rminus; ring).
  eapply Rle_trans; [apply Rabs_triang|]. rewrite Rabs_Ropp. lra.
Qed.
Print Assumptions C79_hosts_agree_in_float.

(** ** Examples *)
(** An engine that was prepared and handed one convolver, and then some blocks *)
Lemma one_settled {A : arith} (R : rfft A) s b m ir M sp c bs : spec_ok 2 s -> engine_bounds s = Ok b -> well_made R 2 m ir M sp c ->
  fits 2 (ps_max_block s) bs -> settling_time b (ps_max_block s) <= total bs ->
  let I := convolver_if R in let l := one_history I false s {| h_id := 0; h_cv := c : cv I |} in
  exists e, eng_run I (eng_new I []) l = Ok (e, []) /\ settled R 2 [] l s e 0 bs.
Proof.
  intros Hs Eb W Hf Ht I l. destruct (one_delivery I false s b {| h_id := 0; h_cv := c : cv I |} Eb) as (e & E & EL & EE).
  exists e. split; [exact E|]. split; [split; [exact Hs|]; split; [intros x _; exact Logic.I|exact Logic.I]|]. split; [reflexivity|].
  split; [exists []; exact E|]. split; [|split; [eapply one_unhurried; eauto|split; [|split; [|split; [exact Hf|exists b; auto]]]]].
  - intros h Hh. rewrite (one_delivers I false s _ h Hh). exists m, ir, M, sp. exact W.
  - intros x Hx. change (In x (e_env I e)) in Hx. rewrite EE in Hx. destruct Hx.
  - change (latest None (e_log I e) = Some 0). rewrite EL. reflexivity.
Qed.
(** One host runs at 44100 Hz in blocks of at most 64 samples, one at 96000 Hz and 512.  Both load the same stereo response. *)
Definition spec96 : process_spec := {| ps_rate_num := 96000; ps_rate_den := 1; ps_max_block := 512; ps_channels := 2 |}.
Definition bounds96 : bounds := {| lower_fade_bound := 9600; upper_fade_bound := 384000; max_crossfade_ir_length := 960000; in_out_fade_length := 38400 |}.
Example C79_example :
  let R := @fast_rfft Rarith in let I := convolver_if R in
  let ir : audio Rarith := map (map Rdefinitions.IZR) [[1; 2; 3; 4; 5]; [7; 0; 1; 2; 3]]%Z in
  exists c1 c2 e1 e2,
    let l1 := [Prepare I spec44; Others I [Deliver I {| h_id := 0; h_cv := c1 : cv I |}]] in
    let l2 := [Prepare I spec96; Others I [Deliver I {| h_id := 0; h_cv := c2 : cv I |}]] in
    eng_run I (eng_new I []) l1 = Ok (e1, []) /\ eng_run I (eng_new I []) l2 = Ok (e2, []) /\
    forall bs1 rest1 bs2 rest2, fits 2 64 (bs1 ++ rest1) -> fits 2 512 (bs2 ++ rest2) ->
    settling_time bounds44 64 <= total bs1 -> settling_time bounds96 512 <= total bs2 ->
    (forall c, c < 2 -> channel c (bs1 ++ rest1) = channel c (bs2 ++ rest2)) ->
    exists e1' before1 outs1 e2' before2 outs2,
      eng_run I e1 (map (Process I) (bs1 ++ rest1)) = Ok (e1', before1 ++ outs1) /\ length before1 = length bs1 /\ length outs1 = length rest1 /\
      eng_run I e2 (map (Process I) (bs2 ++ rest2)) = Ok (e2', before2 ++ outs2) /\ length before2 = length bs2 /\ length outs2 = length rest2 /\
      forall o T, o < 2 -> total bs1 + 5 <= T -> total bs2 + 5 <= T ->
        nth (T - total bs1) (channel o outs1) 0%R = nth (T - total bs2) (channel o outs2) 0%R.
Proof.
  intros R I ir. set (sp := stereo kCrossfade).
  assert (Hir : block_of (length ir) 5 ir) by (split; auto; intros c H; repeat (destruct H as [<-|H]); try destruct H; reflexivity).
  assert (HW : forall M, M = 64 \/ M = 512 -> exists c, well_made R 2 5 ir M sp c).
  { intros M HM. apply (well_made_exists Rarith_laws R (fast_rfft_ok Rarith_laws)); try exact Hir; destruct HM as [-> | ->]; cbn; lia. }
  destruct (HW 64) as (c1 & W1); auto. destruct (HW 512) as (c2 & W2); auto.
  assert (B1 : engine_bounds spec44 = Ok bounds44) by (vm_compute; reflexivity).
  assert (B2 : engine_bounds spec96 = Ok bounds96) by (vm_compute; reflexivity).
  destruct (one_delivery I false spec44 _ {| h_id := 0; h_cv := c1 : cv I |} B1) as (e1 & E1 & _).
  destruct (one_delivery I false spec96 _ {| h_id := 0; h_cv := c2 : cv I |} B2) as (e2 & E2 & _).
  exists c1, c2, e1, e2. intros l1 l2. split; [exact E1|]. split; [exact E2|]. intros bs1 rest1 bs2 rest2 F1 F2 T1 T2 HC.
  assert (Sp : forall a b M, fits 2 M (a ++ b) -> fits 2 M a /\ fits 2 M (b : list (audio Rarith))).
  { intros a b M HF. split; intros x Hx; apply HF; apply in_app_iff; auto. }
  destruct (Sp _ _ _ F1) as [F1a F1b]. destruct (Sp _ _ _ F2) as [F2a F2b].
  destruct (one_settled R spec44 _ _ _ _ _ c1 bs1 ltac:(unfold spec_ok, rate_ok; cbn; lia) B1 W1 F1a T1) as (e1' & E1' & S1).
  destruct (one_settled R spec96 _ _ _ _ _ c2 bs2 ltac:(unfold spec_ok, rate_ok; cbn; lia) B2 W2 F2a T2) as (e2' & E2' & S2).
  assert (e1' = e1) by (assert (X : Ok (e1', @nil (audio Rarith)) = Ok (e1, [])) by (rewrite <- E1'; exact E1); now injection X). subst e1'.
  assert (e2' = e2) by (assert (X : Ok (e2', @nil (audio Rarith)) = Ok (e2, [])) by (rewrite <- E2'; exact E2); now injection X). subst e2'.
  destruct (C79_hosts_agree Rarith Rarith_laws R (fast_rfft_ok Rarith_laws) 2 ltac:(lia) _ _ _ _ _ _ S1 _ _ _ _ _ _ S2) as (h1 & h2 & D1 & _ & D2 & _ & HH).
  rewrite (one_delivers _ _ _ _ _ D1), (one_delivers _ _ _ _ _ D2) in HH.
  exact (HH 5 ir 64 sp 512 sp W1 W2 eq_refl eq_refl rest1 rest2 F1b F2b HC).
Qed.

(** In [float], at 44100 and at 96000 Hz, for every stereo response of 5000 samples *)
Definition spec96' : process_spec := {| ps_rate_num := 96000; ps_rate_den := 1; ps_max_block := 64; ps_channels := 2 |}.
Example C79_float_example : let R := @fast_rfft F32 in let I := convolver_if R in
  forall ir : audio Rarith, block_of 2 5000 ir ->
  exists c1 c2 e1 e2,
    let l1 := [Prepare I spec44; Others I [Deliver I {| h_id := 0; h_cv := c1 : cv I |}]] in
    let l2 := [Prepare I spec96'; Others I [Deliver I {| h_id := 0; h_cv := c2 : cv I |}]] in
    eng_run I (eng_new I []) l1 = Ok (e1, []) /\ eng_run I (eng_new I []) l2 = Ok (e2, []) /\
    forall bs1 rest1 bs2 rest2 : list (audio Rarith), fits 2 64 (bs1 ++ rest1) -> fits 2 64 (bs2 ++ rest2) ->
    settling_time bounds44 64 <= total bs1 -> settling_time bounds96 64 <= total bs2 ->
    (forall c, c < 2 -> channel c (bs1 ++ rest1) = channel c (bs2 ++ rest2)) ->
    exists e1' before1 outs1 e2' before2 outs2,
      eng_run I e1 (map (Process I) (bs1 ++ rest1)) = Ok (e1', before1 ++ outs1) /\ length before1 = length bs1 /\ length outs1 = length rest1 /\
      eng_run I e2 (map (Process I) (bs2 ++ rest2)) = Ok (e2', before2 ++ outs2) /\ length before2 = length bs2 /\ length outs2 = length rest2 /\
      forall X, peak_below X (bs1 ++ rest1) ->
      forall o T, o < 2 -> total bs1 + 5000 <= T -> total bs2 + 5000 <= T -> T < total (bs1 ++ rest1) ->
        (Rabs (nth (T - total bs1) (channel o outs1) 0 - nth (T - total bs2) (channel o outs2) 0) <=
         convolver_error delta64 tau64 5000 64 ir (stereo kCrossfade) X o + convolver_error delta64 tau64 5000 64 ir (stereo kCrossfade) X o)%R.
Proof.
  intros R I ir Hir. pose (sp := stereo kCrossfade).
  destruct (made64 5000 ir kCrossfade) as (c & W); auto.
  assert (B1 : engine_bounds spec44 = Ok bounds44) by (vm_compute; reflexivity).
  assert (B2 : engine_bounds spec96' = Ok bounds96) by (vm_compute; reflexivity).
  destruct (one_delivery I false spec44 _ {| h_id := 0; h_cv := c : cv I |} B1) as (e1 & E1 & _).
  destruct (one_delivery I false spec96' _ {| h_id := 0; h_cv := c : cv I |} B2) as (e2 & E2 & _).
  exists c, c, e1, e2. intros l1 l2. split; [exact E1|]. split; [exact E2|]. intros bs1 rest1 bs2 rest2 F1 F2 T1 T2 HC.
  assert (Sp : forall a b M, @fits F32 2 M (a ++ b) -> @fits F32 2 M a /\ @fits F32 2 M b).
  { intros a b M HF. split; intros x Hx; apply HF; apply in_app_iff; auto. }
  destruct (Sp _ _ _ F1) as [F1a F1b]. destruct (Sp _ _ _ F2) as [F2a F2b].
  destruct (@one_settled F32 R spec44 _ _ _ _ _ c bs1 ltac:(unfold spec_ok, rate_ok; cbn; lia) B1 W F1a T1) as (e1' & E1' & S1).
  destruct (@one_settled F32 R spec96' _ _ _ _ _ c bs2 ltac:(unfold spec_ok, rate_ok; cbn; lia) B2 W F2a T2) as (e2' & E2' & S2).
  assert (e1' = e1) by (assert (X : Ok (e1', @nil (audio F32)) = Ok (e1, [])) by (rewrite <- E1'; exact E1); now injection X). subst e1'.
  assert (e2' = e2) by (assert (X : Ok (e2', @nil (audio F32)) = Ok (e2, [])) by (rewrite <- E2'; exact E2); now injection X). subst e2'.
  destruct (C79_hosts_agree_in_float exact_power R (fast_rfft_sized F32) delta64 tau64 delta64 tau64 2 ltac:(lia) _ _ _ _ _ _ S1 _ _ _ _ _ _ S2)
    as (h1 & h2 & D1 & _ & D2 & _ & HH).
  rewrite (one_delivers _ _ _ _ _ D1), (one_delivers _ _ _ _ _ D2) in HH.
  assert (HP : @precise exact_power R delta64 tau64 5000 64 sp) by (apply precise64; auto).
  exact (HH 5000 ir 64 sp 64 sp W W HP HP eq_refl eq_refl rest1 rest2 F1b F2b HC).
Qed.
