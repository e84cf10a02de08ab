(** Lemmas about n-dimensional arrays. *)
From Coq Require Import ZArith Arith Bool Reals Lia Lra.
From Coquelicot Require Import Coquelicot.
From Coq Require Import List.
From Verif.Model Require Import Base Num FT NDArray Sampling.
From Verif.Spec Require Import SSampling.
From Verif.Proofs Require Import FTFacts.
Import ListNotations.

Definition del {A} (a : nat) (l : list A) : list A := firstn a l ++ skipn (S a) l.
Definition ins {A} (a : nat) (v : A) (l : list A) : list A := firstn a l ++ v :: skipn a l.

Lemma firstn_len {A} a (l : list A) : (a <= length l)%nat -> length (firstn a l) = a.
Proof. intros. rewrite firstn_length. lia. Qed.

Lemma skipn_cons {A} (d : A) a l : (a < length l)%nat -> skipn a l = nth a l d :: skipn (S a) l.
Proof.
  revert l; induction a as [|a IH]; intros [|x l] H; cbn in *; try lia; [reflexivity|].
  apply IH; lia.
Qed.

Lemma split_at {A} (d : A) a l : (a < length l)%nat -> l = firstn a l ++ nth a l d :: skipn (S a) l.
Proof. intros H. rewrite <- (firstn_skipn a l) at 1. now rewrite (skipn_cons d a l H). Qed.

Lemma firstn_app_exact {A} a (l m : list A) : length l = a -> firstn a (l ++ m) = l.
Proof. intros <-. rewrite firstn_app, Nat.sub_diag, firstn_O, app_nil_r. now rewrite firstn_all. Qed.
Lemma skipn_app_exact {A} a (l m : list A) : length l = a -> skipn a (l ++ m) = m.
Proof. intros <-. rewrite skipn_app, Nat.sub_diag, skipn_all. reflexivity. Qed.
Lemma skipn_S_app {A} a (l m : list A) x : length l = a -> skipn (S a) (l ++ x :: m) = m.
Proof.
  intros H. replace (l ++ x :: m) with ((l ++ [x]) ++ m) by (now rewrite <- app_assoc).
  apply skipn_app_exact. rewrite app_length; cbn; lia.
Qed.
Lemma nth_app_exact {A} (d : A) a l x m : length l = a -> nth a (l ++ x :: m) d = x.
Proof. intros <-. rewrite app_nth2, Nat.sub_diag by lia. reflexivity. Qed.

Lemma del_len {A} a (l : list A) : (a < length l)%nat -> length (del a l) = (length l - 1)%nat.
Proof. intros. unfold del. rewrite app_length, firstn_length, skipn_length. lia. Qed.
Lemma ins_len {A} a v (l : list A) : length (ins a v l) = S (length l).
Proof.
  unfold ins. rewrite app_length; cbn [length]. rewrite <- (firstn_skipn a l) at 3. rewrite app_length. lia.
Qed.
Lemma ins_nth {A} (d : A) a v l : (a <= length l)%nat -> nth a (ins a v l) d = v.
Proof. intros. unfold ins. apply nth_app_exact, firstn_len; lia. Qed.
Lemma del_ins {A} a (v : A) l : (a <= length l)%nat -> del a (ins a v l) = l.
Proof.
  intros. unfold del, ins. rewrite firstn_app_exact by now apply firstn_len.
  rewrite skipn_S_app by now apply firstn_len. apply firstn_skipn.
Qed.
Lemma ins_del {A} a (v : A) l : (a < length l)%nat -> ins a v (del a l) = set_nth a v l.
Proof.
  intros. unfold ins, del, set_nth. rewrite firstn_app_exact by (apply firstn_len; lia).
  rewrite skipn_app_exact by (apply firstn_len; lia). reflexivity.
Qed.
Lemma set_nth_same {A} (d : A) a l : (a < length l)%nat -> set_nth a (nth a l d) l = l.
Proof. intros. unfold set_nth. symmetry. now apply split_at. Qed.
Lemma set_nth_ins {A} a v (w : A) l : (a <= length l)%nat -> set_nth a v (ins a w l) = ins a v l.
Proof.
  intros. unfold set_nth, ins. rewrite firstn_app_exact by now apply firstn_len.
  now rewrite skipn_S_app by now apply firstn_len.
Qed.
Lemma set_nth_len {A} a (v : A) l : (a < length l)%nat -> length (set_nth a v l) = length l.
Proof. intros. unfold set_nth. rewrite app_length; cbn [length]. rewrite firstn_length, skipn_length. lia. Qed.
Lemma set_nth_nth {A} (d : A) a v l : (a <= length l)%nat -> nth a (set_nth a v l) d = v.
Proof. intros. unfold set_nth. apply nth_app_exact, firstn_len; lia. Qed.
Lemma set_nth_nth_ne {A} (d : A) a b v l : (a < length l)%nat -> b <> a -> nth b (set_nth a v l) d = nth b l d.
Proof.
  intros H N. unfold set_nth. rewrite (split_at d a l H) at 3.
  destruct (Nat.lt_ge_cases b a) as [L|L].
  - rewrite !app_nth1 by (rewrite firstn_length; lia). reflexivity.
  - rewrite !app_nth2 by (rewrite firstn_length; lia). rewrite !firstn_length.
    replace (b - Nat.min a (length l))%nat with (S (b - a - 1)) by lia. reflexivity.
Qed.
Lemma set_nth_set {A} a (v w : A) l : (a < length l)%nat -> set_nth a v (set_nth a w l) = set_nth a v l.
Proof.
  intros. unfold set_nth at 1 3. f_equal.
  - unfold set_nth. now rewrite firstn_app_exact by (apply firstn_len; lia).
  - f_equal. unfold set_nth. now rewrite skipn_S_app by (apply firstn_len; lia).
Qed.

Lemma map_del {A B} (f : A -> B) a (l : list A) : map f (del a l) = del a (map f l).
Proof. unfold del. rewrite map_app, firstn_map, skipn_map. reflexivity. Qed.
Lemma map_ins {A B} (f : A -> B) a v l : map f (ins a v l) = ins a (f v) (map f l).
Proof. unfold ins. rewrite map_app; cbn [map]. rewrite firstn_map, skipn_map. reflexivity. Qed.
Lemma map_nth_seq {A} (d : A) l : map (fun k => nth k l d) (seq 0 (length l)) = l.
Proof.
  apply nth_ext with (d := d) (d' := d); [now rewrite map_length, seq_length|].
  intros n Hn. rewrite map_length, seq_length in Hn.
  rewrite (nth_indep _ d (nth 0 l d)) by now rewrite map_length, seq_length.
  rewrite (map_nth (fun k => nth k l d)), seq_nth by lia. reflexivity.
Qed.

Lemma filter_del s n a : (s <= a < s + n)%nat ->
  filter (fun k => negb (Nat.eqb k a)) (seq s n) = del (a - s) (seq s n).
Proof.
  revert s; induction n as [|n IH]; intros s H; [lia|].
  cbn [seq filter]. destruct (Nat.eqb_spec s a) as [->|Ne]; cbn [negb].
  - rewrite Nat.sub_diag. unfold del; cbn [firstn skipn app].
    assert (F : forall m t, (a < t)%nat -> filter (fun k => negb (Nat.eqb k a)) (seq t m) = seq t m).
    { induction m as [|m IHm]; intros t Ht; [reflexivity|]. cbn [seq filter].
      destruct (Nat.eqb_spec t a); [lia|]. cbn [negb]. f_equal. apply IHm; lia. }
    apply F; lia.
  - rewrite IH by lia. replace (a - s)%nat with (S (a - S s)) by lia. reflexivity.
Qed.

Lemma move_order_eq n a t : (a < n)%nat -> move_order n a t = ins t a (del a (seq 0 n)).
Proof. intros. unfold move_order. rewrite filter_del by lia. rewrite Nat.sub_0_r. reflexivity. Qed.

Lemma index_of_nth d j l : In j l -> nth (index_of j l) l d = j /\ (index_of j l < length l)%nat.
Proof.
  induction l as [|k l IH]; [intros []|]. intros H. cbn [index_of].
  destruct (Nat.eqb_spec j k) as [->|N]; [cbn; split; [reflexivity|lia]|].
  destruct H as [H|H]; [congruence|]. destruct (IH H). cbn [nth length]. split; [assumption|lia].
Qed.

Lemma move_order_len n a t : (a < n)%nat -> length (move_order n a t) = n.
Proof. intros. rewrite move_order_eq by assumption. rewrite ins_len, del_len; rewrite seq_length; lia. Qed.

Lemma move_order_in n a t j : (a < n)%nat -> (j < n)%nat -> In j (move_order n a t).
Proof.
  intros Ha Hj. rewrite move_order_eq by assumption. unfold ins. apply in_or_app.
  destruct (Nat.eq_dec j a) as [->|N]; [right; now left|].
  assert (D : In j (del a (seq 0 n))).
  { rewrite <- (Nat.sub_0_r a) at 1. rewrite <- filter_del by lia. apply filter_In.
    split; [apply in_seq; lia|]. destruct (Nat.eqb_spec j a); [lia|reflexivity]. }
  rewrite <- (firstn_skipn t (del a (seq 0 n))) in D. apply in_app_or in D.
  destruct D as [D|D]; [now left|right; now right].
Qed.

(** np.moveaxis takes the index at position t of the result for axis a. *)
Lemma transpose_move {A} (x : nd A) a t : (a < ndim x)%nat -> (t < ndim x)%nat ->
  shp (transpose (move_order (ndim x) a t) x) = ins t (nth a (shp x) 0%nat) (del a (shp x)) /\
  forall idx, length idx = ndim x ->
    elt (transpose (move_order (ndim x) a t) x) idx = elt x (ins a (nth t idx 0%nat) (del t idx)).
Proof.
  intros Ha Ht. unfold transpose; cbn [shp elt]. split.
  - rewrite move_order_eq by assumption. rewrite map_ins, map_del. unfold ndim. now rewrite map_nth_seq.
  - intros idx Hl. f_equal. rewrite move_order_len by assumption.
    set (w := ins a (nth t idx 0%nat) (del t idx)).
    assert (Lw : length w = ndim x) by (unfold w; rewrite ins_len, del_len; lia).
    assert (E : map (fun j => nth j w 0%nat) (move_order (ndim x) a t) = idx).
    { rewrite move_order_eq by assumption. rewrite map_ins, map_del.
      replace (seq 0 (ndim x)) with (seq 0 (length w)) by now rewrite Lw. rewrite map_nth_seq.
      unfold w. rewrite ins_nth by (rewrite del_len; lia). rewrite del_ins by (rewrite del_len; lia).
      rewrite (ins_del) by lia. apply set_nth_same; lia. }
    rewrite <- (map_nth_seq 0%nat w), Lw. apply map_ext_in. intros j Hj. apply in_seq in Hj.
    destruct (index_of_nth 0%nat j (move_order (ndim x) a t)) as [E1 E2]; [apply move_order_in; lia|].
    rewrite <- E at 1.
    rewrite (nth_indep _ 0%nat (nth 0 w 0%nat)) by now rewrite map_length.
    rewrite (map_nth (fun j => nth j w 0%nat)).
    f_equal. rewrite (nth_indep _ 0%nat j) by assumption.
    rewrite (nth_indep _ 0%nat j) in E1 by assumption. assumption.
Qed.

Lemma normalize_axis_of n k : normalize_axis n k = match axis_of n k with Some a => Ok a | None => Raise AxisError end.
Proof.
  unfold normalize_axis, axis_of.
  destruct (Z.leb_spec (- Z.of_nat n) k), (Z.ltb_spec k (Z.of_nat n)), (Z.leb_spec 0 k), (Z.ltb_spec k 0);
    cbn [andb]; try lia; try reflexivity.
Qed.

Lemma axis_of_lt n k a : axis_of n k = Some a -> (a < n)%nat.
Proof.
  unfold axis_of.
  destruct (Z.leb_spec (- Z.of_nat n) k), (Z.ltb_spec k (Z.of_nat n)), (Z.leb_spec 0 k), (Z.ltb_spec k 0);
    cbn [andb]; try lia; try discriminate; intros [= <-]; lia.
Qed.

Lemma axis_of_nat n a : (a < n)%nat -> axis_of n (Z.of_nat a) = Some a.
Proof.
  intros. unfold axis_of. destruct (Z.leb_spec 0 (Z.of_nat a)), (Z.ltb_spec (Z.of_nat a) (Z.of_nat n)); try lia.
  cbn [andb]. f_equal; lia.
Qed.

(** [along] for all index tuples of the right length. *)
Definition salong (a N : nat) (f : (nat -> C) -> nat -> C) (x y : nd C) : Prop :=
  shp y = set_nth a N (shp x) /\
  forall idx, length idx = length (shp x) ->
    elt y idx = f (fun l => elt x (set_nth a l idx)) (nth a idx 0%nat).

Lemma valid_len s idx : valid_index s idx -> length idx = length s.
Proof. induction 1; cbn; congruence. Qed.

Lemma valid_nth s idx a : valid_index s idx -> (a < length s)%nat -> (nth a idx 0 < nth a s 0)%nat.
Proof.
  intros H. revert a. induction H as [|i n idx s Hi H IH]; intros a Ha; [cbn in Ha; lia|].
  destruct a; [exact Hi|]. cbn. apply IH. cbn in Ha. lia.
Qed.

Lemma along_of a N f x y : (a < length (shp x))%nat -> salong a N f x y -> along a N f x y.
Proof.
  intros Ha [S E]. split; [exact S|]. intros idx Hi. apply E. apply valid_len in Hi.
  rewrite S, set_nth_len in Hi; assumption.
Qed.

(** The axis an operation acts along by itself. *)
Definition self_axis (n : nat) : nat := (n - 2)%nat.

(** An operation that transforms slices of length L along that axis into slices of
    length N, and refuses all other arrays. *)
Definition acts (op : nd C -> res (nd C)) (L N : nat) (f : (nat -> C) -> nat -> C) : Prop :=
  forall x, if (1 <=? ndim x)%nat && Nat.eqb (nth (self_axis (ndim x)) (shp x) 0%nat) L
            then exists y, op x = Ok y /\ salong (self_axis (ndim x)) N f x y
            else op x = Raise ValueError.

Definition extensional (f : (nat -> C) -> nat -> C) : Prop :=
  forall g h i, (forall l, g l = h l) -> f g i = f h i.

Lemma self_axis_lt n : (1 <= n)%nat -> (self_axis n < n)%nat.
Proof. unfold self_axis; lia. Qed.

Lemma matop_along op L N f x k a : acts op L N f -> extensional f -> axis_of (ndim x) k = Some a ->
  if Nat.eqb (nth a (shp x) 0%nat) L
  then exists y, matop op x (Some k) = Ok y /\ salong a N f x y
  else matop op x (Some k) = Raise ValueError.
Proof.
  intros Hop Hf Ha. pose proof (axis_of_lt _ _ _ Ha) as La.
  unfold matop.
  assert (Et : Z.max (Z.of_nat (ndim x) - 2) 0 = Z.of_nat (self_axis (ndim x))) by (unfold self_axis; lia).
  rewrite Et. set (t := self_axis (ndim x)).
  assert (Lt : (t < ndim x)%nat) by (apply self_axis_lt; lia).
  assert (M1 : moveaxis x k (Z.of_nat t) = Ok (transpose (move_order (ndim x) a t) x)).
  { unfold moveaxis. rewrite normalize_axis_of, Ha. cbn [bind].
    rewrite normalize_axis_of, axis_of_nat by assumption. reflexivity. }
  rewrite M1. cbn [bind].
  destruct (transpose_move x a t La Lt) as [S1 E1].
  set (x1 := transpose (move_order (ndim x) a t) x) in *.
  assert (N1 : ndim x1 = ndim x). { unfold ndim. rewrite S1, ins_len, del_len by assumption. unfold ndim in La; lia. }
  assert (Ld : length (del a (shp x)) = (ndim x - 1)%nat) by (rewrite del_len by assumption; reflexivity).
  specialize (Hop x1). rewrite N1 in Hop. fold t in Hop.
  rewrite S1 in Hop. rewrite ins_nth in Hop by lia.
  destruct (Nat.leb_spec 1 (ndim x)) as [_|]; [|lia]. cbn [andb] in Hop.
  destruct (Nat.eqb_spec (nth a (shp x) 0%nat) L) as [EL|NL].
  2: { rewrite Hop. reflexivity. }
  destruct Hop as (y & -> & Sy & Ey). cbn [bind].
  rewrite S1, set_nth_ins in Sy by lia.
  assert (Ny : ndim y = ndim x). { unfold ndim at 1. rewrite Sy, ins_len. lia. }
  unfold moveaxis. rewrite Ny, !normalize_axis_of, axis_of_nat by assumption. cbn [bind]. rewrite Ha. cbn [bind].
  destruct (transpose_move y t a) as [S2 E2]; [lia|lia|]. rewrite Ny in S2, E2.
  eexists; split; [reflexivity|]. split.
  - rewrite S2, Sy. rewrite ins_nth by lia. rewrite del_ins by lia. apply (ins_del). exact La.
  - intros idx Hi. fold (ndim x) in Hi. rewrite E2 by assumption.
    rewrite Ey. 2: { rewrite ins_len, del_len by lia. fold (ndim x1); lia. }
    rewrite ins_nth by (rewrite del_len; lia).
    apply Hf. intros l. rewrite set_nth_ins by (rewrite del_len; lia).
    rewrite E1 by (rewrite ins_len, del_len; lia).
    rewrite ins_nth, del_ins by (rewrite del_len; lia). now rewrite (ins_del) by lia.
Qed.

Lemma matop_bad_axis op x k : axis_of (ndim x) k = None -> matop op x (Some k) = Raise AxisError.
Proof. intros H. unfold matop, moveaxis. rewrite normalize_axis_of, H. reflexivity. Qed.

Lemma matop_default op L N f x : acts op L N f ->
  if (1 <=? ndim x)%nat && Nat.eqb (nth (ndim x - 2) (shp x) 0%nat) L
  then exists y, matop op x None = Ok y /\ salong (ndim x - 2) N f x y
  else matop op x None = Raise ValueError.
Proof. intros H. exact (H x). Qed.

Lemma acts_mm m : acts (mm m) (mc m) (mr m) (apply_mat m).
Proof.
  intros x. unfold mm, ndim, self_axis.
  destruct x as [s e]; cbn [shp elt]. rewrite <- (rev_involutive s). destruct (rev s) as [|n [|k pre]] eqn:Es; clear Es s.
  - reflexivity.
  - cbn [rev app length Nat.sub nth Nat.leb andb shp].
    destruct (Nat.eqb n (mc m)) eqn:En; cbn [negb]; [|reflexivity].
    eexists; split; [reflexivity|]. split; [reflexivity|].
    intros [|i [|]] Hi; try discriminate. reflexivity.
  - rewrite rev_involutive. cbn [rev]. rewrite <- !app_assoc. cbn [app].
    rewrite app_length, rev_length. cbn [length].
    replace (1 <=? length pre + 2)%nat with true by (symmetry; apply Nat.leb_le; lia). cbn [andb].
    replace (length pre + 2 - 2)%nat with (length pre) by lia.
    rewrite nth_app_exact by apply rev_length.
    destruct (Nat.eqb k (mc m)) eqn:En; cbn [negb]; [|reflexivity].
    eexists; split; [reflexivity|]. split.
    + cbn [shp]. unfold set_nth. rewrite firstn_app_exact by apply rev_length.
      now rewrite skipn_S_app by apply rev_length.
    + intros idx Hi. cbn [shp] in Hi. rewrite app_length, rev_length in Hi; cbn [length] in Hi. cbn [elt].
      unfold apply_mat. apply csumn_ext. intros l _. f_equal. f_equal. unfold set_nth. f_equal. f_equal.
      assert (H : (S (length pre) < length idx)%nat) by lia.
      rewrite (skipn_cons 0%nat _ _ H). f_equal. symmetry. apply skipn_all2. lia.
Qed.

Lemma ext_apply_mat m : extensional (apply_mat m).
Proof. intros g h i E. unfold apply_mat. apply csumn_ext. intros. now rewrite E. Qed.

(** Composition of two operations along the same axis. *)
Lemma acts_comp op1 op2 L M N f1 f2 : acts op1 L M f1 -> acts op2 M N f2 -> extensional f1 -> extensional f2 ->
  acts (fun x => do r <- op1 x; op2 r) L N (fun g => f2 (f1 g)).
Proof.
  intros H1 H2 X1 X2 x. specialize (H1 x).
  destruct (Nat.leb_spec 1 (ndim x)) as [L1|L1]; cbn [andb] in *; [|now rewrite H1].
  pose proof (self_axis_lt _ L1) as Lt.
  destruct (Nat.eqb (nth (self_axis (ndim x)) (shp x) 0%nat) L); [|now rewrite H1].
  destruct H1 as (y & -> & Sy & Ey). cbn [bind]. specialize (H2 y).
  assert (Ny : ndim y = ndim x) by (unfold ndim at 1; rewrite Sy; apply set_nth_len; exact Lt).
  rewrite Ny in H2. destruct (Nat.leb_spec 1 (ndim x)); [|lia]. cbn [andb] in H2.
  rewrite Sy in H2. rewrite set_nth_nth in H2 by (unfold ndim in *; lia). rewrite Nat.eqb_refl in H2.
  destruct H2 as (z & -> & Sz & Ez). eexists; split; [reflexivity|]. split.
  - rewrite Sz, Sy. apply set_nth_set. exact Lt.
  - intros idx Hi. rewrite Ez by (fold (ndim y); rewrite Ny; exact Hi).
    apply X2. intros l. rewrite Ey by (rewrite set_nth_len by (rewrite Hi; exact Lt); exact Hi).
    rewrite set_nth_nth by (rewrite Hi; unfold ndim in *; lia).
    apply X1. intros l'. f_equal. apply set_nth_set. rewrite Hi; exact Lt.
Qed.
