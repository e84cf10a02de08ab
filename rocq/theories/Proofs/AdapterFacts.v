(** Facts about the discrete parts of the irbasis replacement. *)
From Coq Require Import String ZArith Reals Arith Bool Lra Lia Sorting.Sorted.
From Coquelicot Require Import Coquelicot.
From Coq Require Import List.
From Verif.Model Require Import Base Util Num Poly SVE Basis Adapter.
From Verif.Spec Require Import SRoots SAdapter.
From Verif.Proofs Require Import BaseFacts UtilFacts RootsFacts PPolyFacts.
Import ListNotations.
Open Scope R_scope.
Notation length := List.length.

(** ** argmax *)
Lemma argmax_from_spec (l : list R) : forall best bi i, (bi < i)%nat ->
  let k := argmax_from best bi i l in
  let val j := if (j <? i)%nat then best else nth (j - i) l 0 in
  (k = bi \/ (i <= k < i + length l)%nat) /\
  (forall j, (i <= j < i + length l)%nat -> val j <= val k) /\
  best <= val k /\
  (forall j, (i <= j < k)%nat -> val j < val k) /\ (k <> bi -> best < val k).
Proof.
  induction l as [|x l IH]; intros best bi i Hb k val; subst k val; cbn [argmax_from].
  - replace (bi <? i)%nat with true by (symmetry; apply Nat.ltb_lt; lia).
    repeat match goal with |- _ /\ _ => split end; [auto|cbn; lia|lra|lia|tauto].
  - destruct (Rltb best x) eqn:E.
    + apply Rltb_true in E. destruct (IH x i (S i) ltac:(lia)) as (H1 & H2 & H3 & H4 & H5).
      set (k := argmax_from x i (S i) l) in *.
      assert (Hk : (i <= k)%nat) by lia.
      assert (Ev : (if (k <? i)%nat then best else nth (k - i) (x :: l) 0) = (if (k <? S i)%nat then x else nth (k - S i) l 0)).
      { replace (k <? i)%nat with false by (symmetry; apply Nat.ltb_ge; lia).
        destruct (Nat.ltb_spec k (S i)).
        - assert (k = i) as -> by lia. rewrite Nat.sub_diag. reflexivity.
        - replace (k - i)%nat with (S (k - S i)) by lia. reflexivity. }
      assert (Ej : forall j, (S i <= j)%nat -> (if (j <? i)%nat then best else nth (j - i) (x :: l) 0) = (if (j <? S i)%nat then x else nth (j - S i) l 0)).
      { intros j Hj. replace (j <? i)%nat with false by (symmetry; apply Nat.ltb_ge; lia).
        replace (j <? S i)%nat with false by (symmetry; apply Nat.ltb_ge; lia).
        replace (j - i)%nat with (S (j - S i)) by lia. reflexivity. }
      cbv zeta in *. rewrite Ev.
      assert (Hi : (if (i <? i)%nat then best else nth (i - i) (x :: l) 0) = x).
      { rewrite Nat.ltb_irrefl, Nat.sub_diag. reflexivity. }
      repeat match goal with |- _ /\ _ => split end.
      * cbn [length]. lia.
      * intros j Hj. cbn [length] in Hj. destruct (Nat.eq_dec j i) as [->|]; [rewrite Hi; lra|].
        rewrite Ej by lia. apply H2. lia.
      * lra.
      * intros j Hj. destruct (Nat.eq_dec j i) as [->|]; [rewrite Hi; apply H5; lia|]. rewrite Ej by lia. apply H4. lia.
      * lra.
    + apply Rltb_false in E. destruct (IH best bi (S i) ltac:(lia)) as (H1 & H2 & H3 & H4 & H5).
      set (k := argmax_from best bi (S i) l) in *. cbv zeta in *.
      assert (Ej : forall j, j <> i -> (if (j <? i)%nat then best else nth (j - i) (x :: l) 0) = (if (j <? S i)%nat then best else nth (j - S i) l 0)).
      { intros j Hj. destruct (Nat.ltb_spec j i).
        - replace (j <? S i)%nat with true by (symmetry; apply Nat.ltb_lt; lia). reflexivity.
        - replace (j <? S i)%nat with false by (symmetry; apply Nat.ltb_ge; lia).
          replace (j - i)%nat with (S (j - S i)) by lia. reflexivity. }
      assert (Hki : k <> i) by lia. rewrite (Ej k Hki).
      assert (Hi : (if (i <? i)%nat then best else nth (i - i) (x :: l) 0) = x).
      { rewrite Nat.ltb_irrefl, Nat.sub_diag. reflexivity. }
      repeat match goal with |- _ /\ _ => split end.
      * cbn [length]. lia.
      * intros j Hj. cbn [length] in Hj. destruct (Nat.eq_dec j i) as [->|]; [rewrite Hi; lra|].
        rewrite Ej by lia. apply H2. lia.
      * lra.
      * intros j Hj. destruct (Nat.eq_dec j i) as [->|].
        -- rewrite Hi. assert (best < (if (k <? S i)%nat then best else nth (k - S i) l 0)); [apply H5; lia|lra].
        -- rewrite Ej by lia. apply H4. lia.
      * exact H5.
Qed.

Lemma argmax_spec (l : list R) : l <> [] ->
  exists k, argmax l = Ok k /\ (k < length l)%nat /\
    (forall j, (j < length l)%nat -> nth j l 0 <= nth k l 0) /\
    (forall j, (j < k)%nat -> nth j l 0 < nth k l 0).
Proof.
  destruct l as [|x l]; [congruence|]. intros _. cbn [argmax].
  destruct (argmax_from_spec l x 0 1 ltac:(lia)) as (H1 & H2 & H3 & H4 & H5). cbv zeta in *.
  set (k := argmax_from x 0 1 l) in *. exists k.
  assert (Ev : forall j, (if (j <? 1)%nat then x else nth (j - 1) l 0) = nth j (x :: l) 0).
  { intros [|j]; [reflexivity|]. cbn. rewrite Nat.sub_0_r. reflexivity. }
  rewrite Ev in *. split; [reflexivity|]. split; [cbn [length]; lia|]. split.
  - intros j Hj. destruct j as [|j]; [exact H3|]. rewrite <- (Ev (S j)). apply H2. cbn [length] in Hj. lia.
  - intros j Hj. destruct j as [|j]; [apply H5; lia|]. rewrite <- (Ev (S j)). apply H4. lia.
Qed.

(** ** C67 *)
Section Points.
Variable fn : list R.
Hypothesis Hne : fn <> [].
Notation n := (length fn).

Definition seg_point (start stop : nat) : res nat :=
  do k <- argmax (firstn (stop - start) (skipn start (map Rabs fn))); Ok (k + start)%nat.

(** p is the first maximum of |fn| on [s, t). *)
Definition first_max (s t p : nat) : Prop :=
  (s <= p < t)%nat /\
  (forall j, (s <= j < t)%nat -> Rabs (nth j fn 0) <= Rabs (nth p fn 0)) /\
  (forall j, (s <= j < p)%nat -> Rabs (nth j fn 0) < Rabs (nth p fn 0)).

Lemma seg_point_spec s t : (s < t <= n)%nat -> exists p, seg_point s t = Ok p /\ first_max s t p.
Proof.
  intros H. unfold seg_point. set (l := firstn (t - s) (skipn s (map Rabs fn))).
  assert (Hl : length l = (t - s)%nat).
  { subst l. rewrite firstn_length, skipn_length, map_length. lia. }
  assert (Hv : forall j, (j < t - s)%nat -> nth j l 0 = Rabs (nth (j + s) fn 0)).
  { intros j Hj. assert (Hx : forall q m, nth q (skipn m (map Rabs fn)) 0 = nth (q + m) (map Rabs fn) 0).
    { intros q m. rewrite Nat.add_comm. revert q. generalize (map Rabs fn). induction m as [|m IH]; intros [|a l'] q; cbn; auto.
      destruct q; auto. }
    assert (Hy : forall q m (l' : list R), (q < m)%nat -> nth q (firstn m l') 0 = nth q l' 0).
    { intros q m. revert q. induction m as [|m IH]; intros [|q] [|a l'] Hq; cbn; auto; try lia. apply IH. lia. }
    subst l. rewrite Hy, Hx by lia. rewrite <- Rabs_R0 at 1. apply map_nth. }
  destruct (argmax_spec l) as (k & E & Hk & H1 & H2).
  { intros C. rewrite C in Hl. cbn in Hl. lia. }
  rewrite Hl in *. exists (k + s)%nat. rewrite E. split; [reflexivity|]. split; [lia|]. split.
  - intros j Hj. specialize (H1 (j - s)%nat ltac:(lia)). rewrite !Hv in H1 by lia. replace (j - s + s)%nat with j in H1 by lia. exact H1.
  - intros j Hj. specialize (H2 (j - s)%nat ltac:(lia)). rewrite !Hv in H2 by lia. replace (j - s + s)%nat with j in H2 by lia. exact H2.
Qed.

Lemma segs_spec (B : list nat) : forall b0, StronglySorted lt (b0 :: B) -> Forall (fun b => (b <= n)%nat) B ->
  exists pts, collect (map2 seg_point (init (b0 :: B)) (tl (b0 :: B))) = Ok pts /\
    StronglySorted lt pts /\ Forall (fun p => (b0 <= p)%nat) pts /\
    (forall s t, adjacent (b0 :: B) s t -> exists p, In p pts /\ first_max s t p) /\
    (forall p, In p pts -> exists s t, adjacent (b0 :: B) s t /\ first_max s t p).
Proof.
  induction B as [|b1 B IH]; intros b0 Hs Hn.
  - exists []. cbn. split; [reflexivity|]. split; [constructor|]. split; [constructor|]. split; [|tauto].
    intros s t (l1 & l2 & E). destruct l1 as [|? [|? ?]]; discriminate.
  - apply StronglySorted_inv in Hs as [Hs Hf]. inversion Hn as [|? ? Hb1 Hn']; subst.
    inversion Hf as [|? ? H01 _]; subst.
    destruct (IH b1 Hs Hn') as (pts & E & P1 & P2 & P3 & P4).
    destruct (seg_point_spec b0 b1 ltac:(lia)) as (p & Ep & Hp).
    exists (p :: pts). cbn [tl] in *.
    assert (Ei : init (b0 :: b1 :: B) = b0 :: init (b1 :: B)) by reflexivity. rewrite Ei. cbn [map2 collect]. rewrite Ep. cbn [bind].
    rewrite E. cbn [bind]. split; [reflexivity|]. destruct Hp as (Hp1 & Hp2). split; [|split; [|split]].
    + constructor; auto. eapply Forall_impl; [|exact P2]. cbv beta. intros a Ha. lia.
    + constructor; [lia|]. eapply Forall_impl; [|exact P2]. cbv beta. intros a Ha. lia.
    + intros s t (l1 & l2 & E'). destruct l1 as [|c l1].
      * injection E' as -> -> _. exists p. split; [left; auto|split; auto].
      * cbn in E'. injection E' as -> E'. destruct (P3 s t) as (p' & ? & ?); [exists l1, l2; exact E'|]. exists p'. split; auto. right; auto.
    + intros q [<-|Hq].
      * exists b0, b1. split; [exists [], B; reflexivity|split; auto].
      * destruct (P4 q Hq) as (s & t & (l1 & l2 & E') & H'). exists s, t. split; auto. exists (b0 :: l1), l2. cbn. rewrite E'. reflexivity.
Qed.

Definition flips : list nat :=
  nonzero_idx (map2 (fun p q => Rltb (p * q) 0) (tl fn) (init fn)).
Definition bounds : list nat := map S flips ++ [n].

Lemma flip_iff k : In k flips <-> (S k < n)%nat /\ nth k fn 0 * nth (S k) fn 0 < 0.
Proof.
  assert (Htl : forall i, nth i (tl fn) 0 = nth (S i) fn 0) by (intros i; destruct fn; [destruct i; reflexivity|reflexivity]).
  assert (Ll : length (tl fn) = (n - 1)%nat) by (destruct fn; cbn; lia).
  unfold flips, nonzero_idx. set (m := map2 _ _ _).
  assert (Lm : length m = (n - 1)%nat) by (subst m; rewrite map2_length, init_length, Ll; lia).
  assert (Em : forall i, (i < n - 1)%nat -> nth i m false = Rltb (nth (S i) fn 0 * nth i fn 0) 0).
  { intros i Hi. subst m. rewrite (map2_nth _ _ _ i 0 0 false); rewrite ?init_length, ?Ll; try lia. rewrite Htl, init_nth by lia. reflexivity. }
  assert (Hm : m = map (fun i => nth i m false) (seq 0 (length m))).
  { apply nth_ext with (d := false) (d' := false); [rewrite map_length, seq_length; auto|].
    intros i Hi. rewrite (nth_indep (map (fun i => nth i m false) (seq 0 (length m))) false (nth 0 m false)) by (rewrite map_length, seq_length; auto).
    rewrite (map_nth (fun i => nth i m false)). rewrite seq_nth by auto. reflexivity. }
  rewrite Hm at 1. rewrite mask_map_filter, filter_In, in_seq, Lm. split.
  - intros [H1 H2]. split; [lia|]. rewrite Em in H2 by lia. apply Rltb_true in H2. lra.
  - intros [H1 H2]. split; [lia|]. rewrite Em by lia. apply Rltb_true. lra.
Qed.

Lemma flips_sorted : StronglySorted lt flips.
Proof.
  unfold flips, nonzero_idx. set (m := map2 _ _ _).
  assert (forall (m : list bool) a, StronglySorted lt (mask m (seq a (length m)))) as H; [|apply H].
  clear. induction m as [|b m IH]; intros a; cbn; [constructor|]. destruct b; auto. constructor; auto.
  apply Forall_forall. intros x Hx. apply mask_in in Hx. apply in_seq in Hx. lia.
Qed.

Lemma bounds_sorted : StronglySorted lt (0%nat :: bounds).
Proof.
  assert (0 < n)%nat by (destruct fn; cbn; [congruence|lia]).
  constructor.
  - apply StronglySorted_app; [apply StronglySorted_map with (P := lt); [intros; lia|apply flips_sorted]| |].
    + constructor; constructor.
    + intros a b Ha Hb. apply in_map_iff in Ha as (k & <- & Hk). apply flip_iff in Hk as [Hk _]. destruct Hb as [<-|[]]. exact Hk.
  - apply Forall_app. split; [apply Forall_forall; intros a Ha; apply in_map_iff in Ha as (k & <- & Hk); lia|].
    constructor; [auto|constructor].
Qed.

Lemma bounds_in b : In b (0%nat :: bounds) <-> b = 0%nat \/ b = n \/ (0 < b < n)%nat /\ nth (b - 1) fn 0 * nth b fn 0 < 0.
Proof.
  unfold bounds. cbn [In]. rewrite in_app_iff, in_map_iff. cbn [In]. split.
  - intros [<-|[(k & <- & Hk)|[<-|[]]]]; auto. apply flip_iff in Hk as [H1 H2]. right. right.
    replace (S k - 1)%nat with k by lia. split; [lia|auto].
  - intros [->|[->|[H1 H2]]]; [tauto|tauto|]. right. left. exists (b - 1)%nat. split; [lia|]. apply flip_iff.
    replace (S (b - 1)) with b by lia. split; [lia|auto].
Qed.

Lemma nat_gap (l : list nat) a b h : StronglySorted lt l -> adjacent l a b -> In h l -> (h <= a \/ b <= h)%nat.
Proof.
  intros Hs (l1 & l2 & ->) Hh. apply StronglySorted_app_inv in Hs as (_ & H2 & H3).
  apply in_app_or in Hh as [Hh|[<-|[<-|Hh]]]; auto.
  - left. specialize (H3 h a Hh (or_introl eq_refl)). lia.
  - right. apply StronglySorted_inv in H2 as [H2 _]. apply StronglySorted_inv in H2 as [_ H2].
    rewrite Forall_forall in H2. specialize (H2 _ Hh). lia.
Qed.

Lemma nat_cover (l : list nat) : forall a i, StronglySorted lt (a :: l) -> (a <= i < last (a :: l) 0)%nat ->
  exists s t, adjacent (a :: l) s t /\ (s <= i < t)%nat.
Proof.
  induction l as [|b l IH]; intros a i Hs Hi; [cbn in Hi; lia|].
  destruct (le_lt_dec b i).
  - apply StronglySorted_inv in Hs as [Hs _]. destruct (IH b i Hs) as (s & t & (l1 & l2 & E) & H).
    + change (last (a :: b :: l) 0%nat) with (last (b :: l) 0%nat) in Hi. lia.
    + exists s, t. split; auto. exists (a :: l1), l2. cbn. rewrite E. reflexivity.
  - exists a, b. split; [exists [], l; reflexivity|lia].
Qed.

Lemma piece_segment s t : adjacent (0%nat :: bounds) s t ->
  (s < t <= n)%nat /\ forall i j, (i < n)%nat -> (s <= j < t)%nat -> (same_piece fn i j <-> (s <= i < t)%nat).
Proof.
  intros Ha. pose proof bounds_sorted as HB.
  assert (Hst : (s < t)%nat).
  { destruct Ha as (l1 & l2 & E). rewrite E in HB. apply StronglySorted_app_inv in HB as (_ & HB & _).
    apply StronglySorted_inv in HB as [_ HB]. inversion HB; auto. }
  destruct (adjacent_in _ _ _ Ha) as [Is It]. apply bounds_in in Is. apply bounds_in in It.
  assert (Htn : (t <= n)%nat) by lia. split; [lia|].
  intros i j Hi Hj. split.
  - intros [F1 F2]. split.
    + destruct (le_lt_dec s i); auto. exfalso. destruct Is as [->|[->|[Is1 Is2]]]; try lia.
      apply (F1 (s - 1)%nat); [lia|]. replace (S (s - 1)) with s by lia. exact Is2.
    + destruct (le_lt_dec t i); auto. exfalso. destruct It as [->|[->|[It1 It2]]]; try lia.
      apply (F2 (t - 1)%nat); [lia|]. replace (S (t - 1)) with t by lia. exact It2.
  - intros Hi'. assert (G : forall k, (s <= k)%nat -> (S k < t)%nat -> ~ nth k fn 0 * nth (S k) fn 0 < 0).
    { intros k H1 H2 H3. assert (In (S k) (0%nat :: bounds)) as I.
      { apply bounds_in. right. right. split; [lia|]. replace (S k - 1)%nat with k by lia. exact H3. }
      destruct (nat_gap _ _ _ _ HB Ha I); lia. }
    split; intros k Hk; apply G; lia.
Qed.

Lemma sampling_points_spec :
  exists pts, sampling_points fn = Ok pts /\ StronglySorted lt pts /\
    (forall i, (i < n)%nat -> exists p, In p pts /\ same_piece fn i p) /\
    (forall p, In p pts -> first_largest fn p).
Proof.
  pose proof bounds_sorted as HB.
  assert (Fb : Forall (fun b => (b <= n)%nat) bounds).
  { apply Forall_forall. intros b Hb. assert (Hb' : In b (0%nat :: bounds)) by (right; auto). apply bounds_in in Hb'. lia. }
  destruct (segs_spec bounds 0%nat HB Fb) as (pts & E & P1 & _ & P3 & P4).
  exists pts. split; [exact E|]. split; [exact P1|]. split.
  - intros i Hi. destruct (nat_cover bounds 0%nat i HB) as (s & t & Ha & Hst).
    + unfold bounds. rewrite app_comm_cons, last_last. lia.
    + destruct (P3 s t Ha) as (p & Hp & Hm). exists p. split; auto. destruct (piece_segment s t Ha) as [H1 H2].
      apply H2; auto. apply Hm.
  - intros p Hp. destruct (P4 p Hp) as (s & t & Ha & (Hm1 & Hm2 & Hm3)). destruct (piece_segment s t Ha) as [H1 H2].
    split; [lia|]. intros i Hi Hs. apply H2 in Hs; [|auto|auto]. split; [apply Hm2; auto|intros; apply Hm3; lia].
Qed.

End Points.

Lemma sampling_points_empty : sampling_points [] = Raise ValueError.
Proof. reflexivity. Qed.

Lemma largest_unique fn p q : first_largest fn p -> first_largest fn q -> same_piece fn p q -> p = q.
Proof.
  intros (Hp & Ap) (Hq & Aq) Hs. destruct (Nat.lt_trichotomy p q) as [H|[H|H]]; auto; exfalso.
  - destruct (Aq p Hp Hs) as [_ L]. specialize (L H). destruct (Ap q Hq) as [L' _]; [split; apply Hs|]. lra.
  - assert (Hs' : same_piece fn q p) by (split; apply Hs). destruct (Ap q Hq Hs') as [_ L]. specialize (L H).
    destruct (Aq p Hp Hs) as [L' _]. lra.
Qed.

(** ** C68 *)
Lemma neg_shift_sorted (c : Z) l : StronglySorted Z.lt l -> StronglySorted Z.lt (map (fun n => - n - c)%Z (rev l)).
Proof.
  intros H. rewrite map_rev. apply StronglySorted_rev with (P := fun a b => (b < a)%Z); auto.
  apply StronglySorted_map with (P := Z.lt); auto. intros. lia.
Qed.

Lemma full_fermi l : StronglySorted Z.lt l -> Forall (fun n => 0 <= n)%Z l ->
  exists r, full_interval l "F" = Ok r /\ StronglySorted Z.lt r /\ incl l r /\
    (forall n, In n r <-> (In n l \/ In (- n - 1)%Z l)).
Proof.
  intros Hs Hn. rewrite Forall_forall in Hn. eexists. split; [reflexivity|].
  assert (Hin : forall n, In n (map (fun n => (- n - 1)%Z) (rev l) ++ l) <-> (In n l \/ In (- n - 1)%Z l)).
  { intros n. rewrite in_app_iff, in_map_iff. split.
    - intros [(m & <- & Hm)|H]; auto. apply in_rev in Hm. right. replace (- (- m - 1) - 1)%Z with m by lia. auto.
    - intros [H|H]; auto. left. exists (- n - 1)%Z. split; [lia|]. apply in_rev in H. exact H. }
  split; [|split; [|exact Hin]].
  - apply StronglySorted_app; [apply neg_shift_sorted; auto|auto|].
    intros a b Ha Hb. apply in_map_iff in Ha as (m & <- & Hm). apply in_rev in Hm. pose proof (Hn m Hm). pose proof (Hn b Hb). cbv beta in *. lia.
  - intros n Hn'. apply Hin. auto.
Qed.

Lemma full_bose st l : st <> "F"%string -> StronglySorted Z.lt l -> Forall (fun n => 0 <= n)%Z l -> l <> [] ->
  exists r, full_interval l st = Ok r /\ StronglySorted Z.lt r /\ incl l r /\
    (forall n, In n r <-> (n = 0 \/ In n l \/ In (- n) l)%Z).
Proof.
  intros Hst Hs Hn Hne. unfold full_interval. apply String.eqb_neq in Hst. rewrite Hst.
  destruct l as [|n0 rest]; [congruence|]. eexists. split; [reflexivity|].
  rewrite Forall_forall in Hn. set (l := if (n0 =? 0)%Z then rest else n0 :: rest).
  assert (Hpos : forall n, In n l -> (0 < n)%Z).
  { subst l. apply StronglySorted_inv in Hs as [_ Hf]. rewrite Forall_forall in Hf. specialize (Hn n0 (or_introl eq_refl)) as H0.
    intros n Hin. destruct (Z.eqb_spec n0 0); [specialize (Hf n Hin); lia|]. destruct Hin as [<-|Hin]; [lia|specialize (Hf n Hin); lia]. }
  assert (Hls : StronglySorted Z.lt l).
  { subst l. destruct (n0 =? 0)%Z; auto. apply StronglySorted_inv in Hs as [Hs _]. auto. }
  assert (Hl : forall n, (n = 0 \/ In n l)%Z <-> (n = 0 \/ In n (n0 :: rest))%Z).
  { intros n. subst l. destruct (Z.eqb_spec n0 0); [|tauto]. subst. cbn [In]. intuition. }
  assert (Hin : forall n, In n (map Z.opp (rev l) ++ 0%Z :: l) <-> (n = 0 \/ In n (n0 :: rest) \/ In (- n) (n0 :: rest))%Z).
  { intros n. rewrite in_app_iff, in_map_iff. cbn [In]. specialize (Hl n) as L1. specialize (Hl (- n)%Z) as L2. split.
    - intros [(m & <- & Hm)|[<-|H]]; auto.
      + apply in_rev in Hm. right. right. specialize (Hl m) as L3. rewrite Z.opp_involutive. specialize (Hpos m Hm). 
        assert (m = 0%Z \/ In m (n0 :: rest)) as [?|?] by (apply L3; auto); [lia|auto].
      + assert (n = 0%Z \/ In n (n0 :: rest)) as [?|?] by (apply L1; auto); auto.
    - intros [->|[H|H]]; auto.
      + assert (n = 0%Z \/ In n l) as [->|?] by (apply L1; auto); auto.
      + assert ((- n)%Z = 0%Z \/ In (- n)%Z l) as [E|?] by (apply L2; auto).
        * right. left. lia.
        * left. exists (- n)%Z. split; [lia|]. rewrite <- in_rev. auto. }
  split; [|split; [|exact Hin]].
  - apply StronglySorted_app.
    + pose proof (neg_shift_sorted 0 l Hls) as H. erewrite map_ext; [exact H|]. intros; cbv beta; lia.
    + constructor; auto. apply Forall_forall. intros x Hx. apply Hpos; auto.
    + intros a b Ha Hb. apply in_map_iff in Ha as (m & <- & Hm). apply in_rev in Hm. apply Hpos in Hm.
      destruct Hb as [<-|Hb]; [lia|]. apply Hpos in Hb. lia.
  - intros n Hn'. apply Hin. auto.
Qed.

Lemma full_bose_empty st : st <> "F"%string -> full_interval [] st = Raise IndexError.
Proof. intros H. unfold full_interval. apply String.eqb_neq in H. rewrite H. reflexivity. Qed.

(** ** start guesses *)
Lemma Rtrunc_nonneg x : 0 <= x -> (0 <= Rtrunc x)%Z /\ IZR (Rtrunc x) <= x < IZR (Rtrunc x) + 1.
Proof.
  intros H. unfold Rtrunc. destruct (Rle_dec 0 x) as [_|]; [|lra].
  destruct (base_Int_part x) as [H1 H2]. split; [|lra].
  assert (-1 < Int_part x)%Z; [apply lt_IZR; lra|lia].
Qed.

Lemma start_guesses_spec n : (2 <= n)%nat -> (Z.of_nat n <= 10 ^ 8)%Z ->
  StronglySorted Z.lt (start_guesses n) /\
  (forall k, (0 <= k < Z.of_nat n)%Z -> In k (start_guesses n)) /\
  (forall k, In k (start_guesses n) -> (0 <= k <= 10 ^ 8)%Z) /\ In (10 ^ 8)%Z (start_guesses n).
Proof.
  intros H2 H8.
  assert (Hn : 2 <= INR n) by (change 2 with (INR 2); apply le_INR; auto).
  assert (H8' : INR n <= 10 ^ 8).
  { rewrite INR_IZR_INZ. replace (10 ^ 8) with (IZR (10 ^ 8)) by (rewrite pow_IZR; reflexivity). apply IZR_le. auto. }
  assert (Hln : ln (INR n) <= ln (10 ^ 8)) by (apply ln_le; lra).
  assert (Hd : 0 < INR (n - 1)) by (apply lt_0_INR; lia).
  assert (Hmem : forall k, In k (start_guesses n) <->
     ((0 <= k < Z.of_nat n)%Z \/ exists i, (i < n)%nat /\ k = Rtrunc (exp (ln (INR n) + INR i * ((ln (10 ^ 8) - ln (INR n)) / INR (n - 1)))))).
  { intros k. unfold start_guesses, linspace. rewrite zunique_in, in_app_iff, map_map, !in_map_iff. split.
    - intros [(i & <- & Hi)|(i & <- & Hi)]; apply in_seq in Hi.
      + left. lia.
      + right. exists i. split; [lia|reflexivity].
    - intros [Hk|(i & Hi & ->)].
      + left. exists (Z.to_nat k). split; [lia|]. apply in_seq. lia.
      + right. exists i. split; [reflexivity|]. apply in_seq. lia. }
  split; [apply zunique_sorted|]. split; [intros k Hk; apply Hmem; auto|]. split.
  - intros k Hk. apply Hmem in Hk as [Hk|(i & Hi & ->)]; [lia|].
    set (e := exp _). assert (He : 0 < e) by apply exp_pos.
    assert (He' : e <= 10 ^ 8).
    { subst e. rewrite <- (exp_ln (10 ^ 8)) at 2 by lra. 
      assert (G : INR i * ((ln (10 ^ 8) - ln (INR n)) / INR (n - 1)) <= ln (10 ^ 8) - ln (INR n)).
      { replace (INR i * ((ln (10 ^ 8) - ln (INR n)) / INR (n - 1))) with (INR i / INR (n - 1) * (ln (10 ^ 8) - ln (INR n))) by (field; lra).
        rewrite <- (Rmult_1_l (ln (10 ^ 8) - ln (INR n))) at 2. apply Rmult_le_compat_r; [lra|].
        apply Rmult_le_reg_r with (INR (n - 1)); [auto|]. unfold Rdiv. rewrite Rmult_assoc, Rinv_l, Rmult_1_r, Rmult_1_l by lra.
        apply le_INR. lia. }
      destruct (Rle_lt_or_eq_dec (ln (INR n) + INR i * ((ln (10 ^ 8) - ln (INR n)) / INR (n - 1))) (ln (10 ^ 8))) as [L|L]; [lra| |rewrite L; lra].
      left. apply exp_increasing. auto. }
    destruct (Rtrunc_nonneg e) as [T1 T2]; [lra|]. split; auto. apply le_IZR. replace (IZR (10 ^ 8)) with (10 ^ 8)%R by (rewrite pow_IZR; reflexivity). lra.
  - apply Hmem. right. exists (n - 1)%nat. split; [lia|].
    replace (ln (INR n) + INR (n - 1) * ((ln (10 ^ 8) - ln (INR n)) / INR (n - 1))) with (ln (10 ^ 8)) by (field; lra).
    rewrite exp_ln by lra. replace (10 ^ 8)%R with (IZR (10 ^ 8)) by (rewrite pow_IZR; reflexivity). rewrite Rtrunc_IZR. reflexivity.
Qed.
