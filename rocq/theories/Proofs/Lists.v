(** * Lemmas about arrays, loops and outcomes *)
From Verif.Model Require Import Base.

Lemma tab_length {A} n (f : nat -> A) : length (tab n f) = n.
Proof. unfold tab. now rewrite map_length, seq_length. Qed.

Lemma tab_nth {A} n (f : nat -> A) i d : i < n -> nth i (tab n f) d = f i.
Proof.
  intros H. unfold tab. rewrite nth_indep with (d' := f 0).
  - rewrite map_nth. now rewrite seq_nth.
  - now rewrite map_length, seq_length.
Qed.

Lemma nth_error_nth_Some {A} (l : list A) i d : i < length l -> nth_error l i = Some (nth i l d).
Proof. apply nth_error_nth'. Qed.

Lemma list_ext {A} (l l' : list A) d :
  length l = length l' -> (forall i, i < length l -> nth i l d = nth i l' d) -> l = l'.
Proof. intros. eapply nth_ext; eauto. Qed.

Lemma tab_ext {A} n (f g : nat -> A) : (forall i, i < n -> f i = g i) -> tab n f = tab n g.
Proof.
  intros H. unfold tab. apply map_ext_in. intros a Ha. apply in_seq in Ha. apply H. lia.
Qed.

Lemma tab_of_list {A} (l : list A) d : l = tab (length l) (fun i => nth i l d).
Proof.
  apply list_ext with (d := d).
  - now rewrite tab_length.
  - intros. now rewrite tab_nth.
Qed.

Lemma list_tab {A} (l : list A) n f d :
  length l = n -> (forall i, i < n -> nth i l d = f i) -> l = tab n f.
Proof.
  intros H H'. apply list_ext with (d := d).
  - now rewrite tab_length.
  - intros. rewrite tab_nth by lia. apply H'; lia.
Qed.

Lemma tab_0 {A} (f : nat -> A) : tab 0 f = [].
Proof. reflexivity. Qed.

Lemma tab_S {A} n (f : nat -> A) : tab (S n) f = f 0 :: tab n (fun i => f (S i)).
Proof. unfold tab. simpl. f_equal. rewrite <- seq_shift, map_map. reflexivity. Qed.

Lemma tab_app {A} n m (f : nat -> A) : tab (n + m) f = tab n f ++ tab m (fun i => f (n + i)).
Proof.
  revert f. induction n; intros.
  - reflexivity.
  - simpl plus. rewrite !tab_S. simpl. f_equal. rewrite IHn. reflexivity.
Qed.

Lemma tab_double {A} h (f : nat -> A) : tab (2 * h) f = tab h f ++ tab h (fun i => f (h + i)).
Proof. replace (2 * h) with (h + h) by lia. apply tab_app. Qed.

Lemma tab_snoc {A} n (f : nat -> A) : tab (S n) f = tab n f ++ [f n].
Proof.
  replace (S n) with (n + 1) by lia. rewrite tab_app. rewrite tab_S, tab_0.
  now rewrite Nat.add_0_r.
Qed.

Lemma tab_map {A B} n (f : nat -> A) (g : A -> B) : map g (tab n f) = tab n (fun i => g (f i)).
Proof. unfold tab. now rewrite map_map. Qed.

Lemma tab_firstn {A} n m (f : nat -> A) : firstn m (tab n f) = tab (Nat.min m n) f.
Proof.
  destruct (le_lt_dec m n).
  - rewrite Nat.min_l by lia. replace n with (m + (n - m)) by lia. rewrite tab_app.
    rewrite firstn_app, tab_length, Nat.sub_diag, firstn_O, app_nil_r.
    rewrite firstn_all2; auto. rewrite tab_length; lia.
  - rewrite Nat.min_r by lia. apply firstn_all2. rewrite tab_length; lia.
Qed.

Lemma tab_skipn {A} n m (f : nat -> A) : skipn m (tab n f) = tab (n - m) (fun i => f (m + i)).
Proof.
  destruct (le_lt_dec m n).
  - replace n with (m + (n - m)) at 1 by lia. rewrite tab_app.
    rewrite skipn_app, tab_length, Nat.sub_diag, skipn_O.
    rewrite skipn_all2; auto. rewrite tab_length; lia.
  - replace (n - m) with 0 by lia. apply skipn_all2. rewrite tab_length; lia.
Qed.

Lemma repeat_tab {A} n (a : A) : repeat a n = tab n (fun _ => a).
Proof. induction n; simpl; auto. rewrite tab_S. now f_equal. Qed.

Lemma map_const_repeat {A B} (l : list A) (b : B) : map (fun _ => b) l = repeat b (length l).
Proof. induction l; simpl; f_equal; auto. Qed.

Lemma tab_eq_inv {A} n (f g : nat -> A) : tab n f = tab n g -> forall i, i < n -> f i = g i.
Proof.
  intros H i Hi. rewrite <- (tab_nth n f i (f i)) by auto. rewrite H. now apply tab_nth.
Qed.

Lemma seq_tab a n : seq a n = tab n (fun i => a + i).
Proof.
  revert a. induction n; intros; simpl; auto. rewrite tab_S, IHn. f_equal; [lia|].
  apply tab_ext. intros; lia.
Qed.

(** ** upd *)
Lemma upd_length {A} (l : list A) i v : length (upd l i v) = length l.
Proof. revert i; induction l; destruct i; simpl; auto. Qed.

Lemma upd_nth {A} (l : list A) i v j d :
  nth j (upd l i v) d = if (j =? i) && (j <? length l) then v else nth j l d.
Proof.
  revert i j; induction l; intros; simpl.
  - destruct j; now rewrite andb_false_r.
  - destruct i, j; simpl; auto. rewrite IHl. reflexivity.
Qed.

Lemma upd_nth_same {A} (l : list A) i v d : i < length l -> nth i (upd l i v) d = v.
Proof.
  intros. rewrite upd_nth, Nat.eqb_refl. apply Nat.ltb_lt in H. now rewrite H.
Qed.

Lemma upd_nth_other {A} (l : list A) i v j d : j <> i -> nth j (upd l i v) d = nth j l d.
Proof. intros. rewrite upd_nth. apply Nat.eqb_neq in H. now rewrite H. Qed.

Lemma upd_tab {A} n (f : nat -> A) i v :
  upd (tab n f) i v = tab n (fun j => if j =? i then v else f j).
Proof.
  apply list_tab with (d := v).
  - now rewrite upd_length, tab_length.
  - intros j Hj. rewrite upd_nth, tab_length.
    apply Nat.ltb_lt in Hj as Hj'. rewrite Hj', andb_true_r.
    destruct (j =? i); auto. now apply tab_nth.
Qed.

Lemma upd_upd {A} (l : list A) i v w : upd (upd l i v) i w = upd l i w.
Proof. revert i; induction l; destruct i; simpl; f_equal; auto. Qed.

Lemma upd_app_l {A} (l r : list A) i v : i < length l -> upd (l ++ r) i v = upd l i v ++ r.
Proof.
  revert i; induction l; intros i H; simpl in *; [lia|]. destruct i; simpl; auto.
  f_equal. apply IHl. lia.
Qed.

Lemma upd_app_r {A} (l r : list A) i v : upd (l ++ r) (length l + i) v = l ++ upd r i v.
Proof. induction l; simpl; auto. f_equal; auto. Qed.

Lemma upd_id {A} (l : list A) i d : upd l i (nth i l d) = l.
Proof. revert i; induction l; destruct i; simpl; f_equal; auto. Qed.

(** ** get and set *)
Lemma get_ok {A} (l : list A) i d : i < length l -> get l i = Ok (nth i l d).
Proof. intros. unfold get. now rewrite nth_error_nth_Some with (d := d). Qed.

Lemma get_undef {A} (l : list A) i : length l <= i -> get l i = Undef.
Proof. intros. unfold get. apply nth_error_None in H. now rewrite H. Qed.

Lemma get_tab {A} n (f : nat -> A) i : i < n -> get (tab n f) i = Ok (f i).
Proof.
  intros. rewrite get_ok with (d := f 0) by (now rewrite tab_length). now rewrite tab_nth.
Qed.

Lemma set_ok {A} (l : list A) i v : i < length l -> set l i v = Ok (upd l i v).
Proof. intros. unfold set. apply Nat.ltb_lt in H. now rewrite H. Qed.

Lemma set_tab {A} n (f : nat -> A) i v :
  i < n -> set (tab n f) i v = Ok (tab n (fun j => if j =? i then v else f j)).
Proof. intros. rewrite set_ok by (now rewrite tab_length). now rewrite upd_tab. Qed.

Lemma get_app_mid {A} (pre seg post : list A) i d :
  i < length seg -> get (pre ++ seg ++ post) (length pre + i) = Ok (nth i seg d).
Proof.
  intros. rewrite get_ok with (d := d).
  - rewrite app_nth2_plus. now rewrite app_nth1.
  - rewrite !app_length. lia.
Qed.

Lemma set_app_mid {A} (pre seg post : list A) i v :
  i < length seg -> set (pre ++ seg ++ post) (length pre + i) v = Ok (pre ++ upd seg i v ++ post).
Proof.
  intros. rewrite set_ok.
  - rewrite upd_app_r. now rewrite upd_app_l.
  - rewrite !app_length. lia.
Qed.

(** ** bind *)
Lemma bind_Ok {A B} (a : A) (k : A -> res B) : bind (Ok a) k = k a.
Proof. reflexivity. Qed.

Lemma bind_assoc {A B C} (r : res A) (k : A -> res B) (k' : B -> res C) :
  bind (bind r k) k' = bind r (fun a => bind (k a) k').
Proof. destruct r; reflexivity. Qed.

Lemma bind_inv {A B} (r : res A) (k : A -> res B) b :
  bind r k = Ok b -> exists a, r = Ok a /\ k a = Ok b.
Proof. destruct r; simpl; intros; try discriminate. eauto. Qed.

Lemma assert_true b : b = true -> assert b = Ok tt.
Proof. now intros ->. Qed.

(** ** loops *)
Lemma for_from_inv {St} (Inv : nat -> St -> Prop) body a n :
  (forall i s, a <= i < a + n -> Inv i s -> exists s', body i s = Ok s' /\ Inv (S i) s') ->
  forall s, Inv a s -> exists s', for_from a n body s = Ok s' /\ Inv (a + n) s'.
Proof.
  revert a. induction n; intros a H s Hs.
  - exists s. rewrite Nat.add_0_r. now split.
  - simpl. destruct (H a s) as (s' & E & I'); [lia|assumption|].
    rewrite E. simpl. replace (a + S n) with (S a + n) by lia.
    apply IHn; auto. intros; apply H; auto; lia.
Qed.

(** loops described by an explicit sequence of states *)
Lemma for_from_seq {St} (F : nat -> St) body a n :
  (forall i, a <= i < a + n -> body i (F i) = Ok (F (S i))) ->
  for_from a n body (F a) = Ok (F (a + n)).
Proof.
  revert a. induction n; intros a H.
  - simpl. now rewrite Nat.add_0_r.
  - simpl. rewrite H by lia. simpl. replace (a + S n) with (S a + n) by lia.
    apply IHn. intros; apply H; lia.
Qed.

Lemma for_n_seq {St} (F : nat -> St) body n :
  (forall i, i < n -> body i (F i) = Ok (F (S i))) ->
  for_n n body (F 0) = Ok (F n).
Proof. intros. unfold for_n. change n with (0 + n) at 2. apply for_from_seq. intros; apply H; lia. Qed.

Lemma for_from_ext {St} a n (b b' : nat -> St -> res St) s :
  (forall i s, a <= i < a + n -> b i s = b' i s) -> for_from a n b s = for_from a n b' s.
Proof.
  revert a s. induction n; intros a s H; simpl; auto.
  rewrite H by lia. destruct (b' a s); simpl; auto. apply IHn. intros; apply H; lia.
Qed.

Lemma for_from_app {St} a n m (b : nat -> St -> res St) s :
  for_from a (n + m) b s = bind (for_from a n b s) (for_from (a + n) m b).
Proof.
  revert a s. induction n; intros; simpl.
  - now rewrite Nat.add_0_r.
  - destruct (b a s); simpl; auto. rewrite IHn. now replace (S a + n) with (a + S n) by lia.
Qed.

Lemma for_from_snoc {St} a n (b : nat -> St -> res St) s :
  for_from a (S n) b s = bind (for_from a n b s) (b (a + n)).
Proof.
  replace (S n) with (n + 1) by lia. rewrite for_from_app.
  destruct (for_from a n b s) as [s'| |]; simpl; auto. destruct (b (a + n) s'); auto.
Qed.

Lemma mapM_ok {A B} (f : A -> res B) (g : A -> B) l :
  (forall a, In a l -> f a = Ok (g a)) -> mapM f l = Ok (map g l).
Proof.
  induction l; intros H; simpl; auto.
  rewrite H by now left. simpl. rewrite IHl; [reflexivity|]. intros; apply H; now right.
Qed.

Lemma mapM_tab {A B} (f : A -> res B) (g : nat -> B) n (h : nat -> A) :
  (forall i, i < n -> f (h i) = Ok (g i)) -> mapM f (tab n h) = Ok (tab n g).
Proof.
  revert h g. induction n; intros h g H; [reflexivity|].
  rewrite !tab_S. cbn [mapM]. rewrite H by lia. cbn [bind].
  rewrite (IHn (fun i => h (S i)) (fun i => g (S i))); auto.
  intros; apply H; lia.
Qed.

Lemma mapM_length {A B} (f : A -> res B) l l' : mapM f l = Ok l' -> length l' = length l.
Proof.
  revert l'. induction l; simpl; intros l' H.
  - inversion H; auto.
  - apply bind_inv in H as (b & _ & H). apply bind_inv in H as (t & Ht & H).
    inversion H; subst. simpl. f_equal; auto.
Qed.

Lemma mapM_nth {A B} (f : A -> res B) l l' i da db :
  mapM f l = Ok l' -> i < length l -> f (nth i l da) = Ok (nth i l' db).
Proof.
  revert l' i. induction l; simpl; intros l' i H Hi; [lia|].
  apply bind_inv in H as (b & Hb & H). apply bind_inv in H as (t & Ht & H).
  inversion H; subst. destruct i; simpl; auto. apply IHl; auto; lia.
Qed.

Lemma while_step {St} fuel cond (body : St -> res St) s s' :
  cond s = true -> body s = Ok s' -> while_ (S fuel) cond body s = while_ fuel cond body s'.
Proof. intros Hc Hb. simpl. now rewrite Hc, Hb. Qed.

Lemma while_end {St} fuel cond (body : St -> res St) s :
  cond s = false -> while_ fuel cond body s = Ok s.
Proof. intros Hc. destruct fuel; simpl; now rewrite Hc. Qed.

(** concatenation of equally long pieces *)
Lemma concat_length_const {A} (l : list (list A)) n :
  (forall x, In x l -> length x = n) -> length (concat l) = length l * n.
Proof.
  induction l; simpl; intros H; auto. rewrite app_length, IHl.
  - now rewrite H by now left.
  - intros; apply H; now right.
Qed.

Lemma firstn_skipn_add {A} (l : list A) a b :
  firstn (a + b) l = firstn a l ++ firstn b (skipn a l).
Proof.
  revert l. induction a; intros; simpl; auto. destruct l; simpl.
  - now rewrite firstn_nil.
  - f_equal; auto.
Qed.

Lemma skipn_skipn' {A} (l : list A) a b : skipn a (skipn b l) = skipn (b + a) l.
Proof.
  revert l. induction b; intros; simpl; auto. destruct l; simpl; auto. now rewrite skipn_nil.
Qed.

Lemma nth_skipn' {A} (l : list A) n i d : nth i (skipn n l) d = nth (n + i) l d.
Proof.
  revert l; induction n; intros; simpl; auto. destruct l; simpl; auto. now destruct i.
Qed.

Lemma nth_firstn' {A} (l : list A) n i d :
  nth i (firstn n l) d = if i <? n then nth i l d else d.
Proof.
  revert l i; induction n; intros; simpl.
  - now destruct i.
  - destruct l; simpl.
    + destruct i; destruct (_ <? _); auto.
    + destruct i; simpl; auto. rewrite IHn. reflexivity.
Qed.

Lemma nth_app' {A} (l l' : list A) i d :
  nth i (l ++ l') d = if i <? length l then nth i l d else nth (i - length l) l' d.
Proof.
  destruct (i <? length l) eqn:E.
  - apply Nat.ltb_lt in E. now apply app_nth1.
  - apply Nat.ltb_ge in E. now apply app_nth2.
Qed.

Lemma app_eq_len {A} (a b c d : list A) : length a = length c -> a ++ b = c ++ d -> a = c /\ b = d.
Proof.
  revert c; induction a; intros c H E; destruct c; simpl in *; try discriminate; auto.
  inversion E. destruct (IHa c) as [-> ->]; auto.
Qed.

(** boolean comparisons to propositions and back *)
Ltac bdestr e := destruct e eqn:?.
Ltac bprop :=
  repeat match goal with
  | H : (_ <? _) = true |- _ => apply Nat.ltb_lt in H
  | H : (_ <? _) = false |- _ => apply Nat.ltb_ge in H
  | H : (_ <=? _) = true |- _ => apply Nat.leb_le in H
  | H : (_ <=? _) = false |- _ => apply Nat.leb_gt in H
  | H : (_ =? _) = true |- _ => apply Nat.eqb_eq in H
  | H : (_ =? _) = false |- _ => apply Nat.eqb_neq in H
  | H : (_ && _)%bool = true |- _ => apply andb_prop in H; destruct H
  | H : (_ && _)%bool = false |- _ => apply andb_false_iff in H
  | H : (_ || _)%bool = true |- _ => apply orb_prop in H
  | H : (_ || _)%bool = false |- _ => apply orb_false_iff in H; destruct H
  | H : negb _ = true |- _ => apply negb_true_iff in H
  | H : negb _ = false |- _ => apply negb_false_iff in H
  end.
(** case analysis on every boolean test of naturals in the goal *)
Ltac bcase1 :=
  match goal with
  | |- context [?a <? ?b] => destruct (Nat.ltb_spec a b)
  | |- context [?a <=? ?b] => destruct (Nat.leb_spec a b)
  | |- context [?a =? ?b] => destruct (Nat.eqb_spec a b)
  end; cbn [andb orb negb].
Ltac bcase := repeat bcase1.
(** prove a boolean condition *)
Ltac btrue :=
  repeat (apply andb_true_intro; split);
  first [apply Nat.ltb_lt | apply Nat.leb_le | apply Nat.eqb_eq | reflexivity]; try lia.

(** one step of a computation *)
Lemma bind_eq {A B} (r : res A) (k : A -> res B) a x : r = Ok a -> k a = x -> bind r k = x.
Proof. intros -> H. exact H. Qed.
