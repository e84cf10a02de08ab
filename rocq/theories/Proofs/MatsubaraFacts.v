From Coq Require Import List ZArith Bool Reals Lia Lra Permutation Sorted Arith.
From Flocq Require Import Core.
From Verif.Model Require Import Base Roots Matsubara.
From Verif.Spec Require Import SRoots SMatsubara.
From Verif.Proofs Require Import BaseFacts RootsFacts RootsDiscr RootsExtr.
Import ListNotations.
Open Scope Z_scope.

(** * Symmetrisation *)
Lemma nondecreasing_spec l : nondecreasing l = true <-> StronglySorted Z.le l.
Proof.
  induction l as [|x l IH]; [split; constructor|].
  destruct l as [|y l]; [split; repeat constructor|].
  cbn [nondecreasing]. cbn [nondecreasing] in IH. rewrite andb_true_iff, Z.leb_le, IH. split.
  - intros [H1 H2]. constructor; auto. constructor; auto.
    apply StronglySorted_inv in H2 as [_ H2]. rewrite Forall_forall in *. intros z Hz.
    specialize (H2 z Hz). lia.
  - intros H. apply StronglySorted_inv in H as [H1 H2]. inversion H2; auto.
Qed.

Lemma map_opp_opp l : map Z.opp (map Z.opp l) = l.
Proof. induction l; simpl; auto. rewrite IHl. f_equal; lia. Qed.

Lemma symmetrize_app_symmetric l : symmetric (map Z.opp (rev l) ++ l).
Proof.
  unfold symmetric. rewrite rev_app_distr, map_app, map_rev, rev_involutive. f_equal.
  apply map_opp_opp.
Qed.

Lemma opp_sorted (P Q : Z -> Z -> Prop) l :
  (forall a b, P a b -> Q (- b) (- a)) ->
  StronglySorted P l -> StronglySorted Q (map Z.opp (rev l)).
Proof.
  intros HPQ H. rewrite map_rev. apply StronglySorted_rev with (P := fun a b => Q b a).
  - auto.
  - apply StronglySorted_map with (P := P); auto.
Qed.

Lemma count_opp l n : count_occ Z.eq_dec (map Z.opp (rev l)) n = count_occ Z.eq_dec l (- n).
Proof.
  rewrite map_rev. rewrite count_occ_rev.
  induction l as [|x l IH]; auto. cbn [map count_occ].
  destruct (Z.eq_dec (- x) n), (Z.eq_dec x (- n)); try lia; rewrite IH; auto.
Qed.

Lemma symmetrize_ok l :
  StronglySorted Z.le l -> Forall (fun x => 0 <= x) l ->
  exists r, symmetrize l = Ok r /\ symmetric r /\ StronglySorted Z.le r /\
    (forall n, n <> 0 -> mult r n = mult l (Z.abs n)) /\
    mult r 0 = (2 * mult l 0 - 1)%nat /\
    (StronglySorted Z.lt l -> StronglySorted Z.lt r).
Proof.
  intros Hs Hp. destruct l as [|x l].
  { exists []. repeat split; auto. }
  unfold symmetrize.
  rewrite (proj2 (nondecreasing_spec _)) by auto. cbn [negb].
  assert (Hx : 0 <= x) by (inversion Hp; auto).
  destruct (Z.leb_spec 0 x); [|lia]. cbn [negb].
  assert (Hx' : Forall (fun y => x <= y) l) by (apply StronglySorted_inv in Hs as [_ ?]; auto).
  assert (Hl : StronglySorted Z.le l) by (apply StronglySorted_inv in Hs as [? _]; auto).
  assert (Hmult0 : forall n, n < 0 -> mult (x :: l) n = 0%nat).
  { intros n Hn. apply count_occ_not_In. rewrite Forall_forall in Hp. intros Hin. apply Hp in Hin. lia. }
  destruct (Z.eqb_spec x 0) as [->|Hne].
  - assert (E : map Z.opp (rev (0 :: l)) ++ l = map Z.opp (rev l) ++ (0 :: l)).
    { cbn [rev]. rewrite map_app, <- app_assoc. reflexivity. }
    rewrite E. eexists; split; [reflexivity|]. split; [|split; [|split; [|split]]].
    + unfold symmetric. rewrite rev_app_distr. cbn [rev]. rewrite map_app, map_app, map_rev, rev_involutive.
      rewrite map_opp_opp.
      cbn [map]. rewrite <- app_assoc. reflexivity.
    + apply StronglySorted_app; auto.
      * apply opp_sorted with (P := Z.le); auto. intros; lia.
      * intros a b Ha Hb. rewrite Forall_forall in Hx', Hp.
        apply in_map_iff in Ha as (a' & <- & Ha). apply in_rev in Ha.
        apply Hx' in Ha. apply Hp in Hb. lia.
    + intros n Hn. unfold mult. rewrite count_occ_app, count_opp.
      destruct (Z_lt_le_dec n 0).
      * replace (Z.abs n) with (- n) by lia.
        change (count_occ Z.eq_dec (0 :: l) n) with (mult (0 :: l) n). rewrite Hmult0 by auto.
        rewrite count_occ_cons_neq by lia. lia.
      * replace (Z.abs n) with n by lia.
        assert (count_occ Z.eq_dec l (- n) = 0%nat); [|lia].
        apply count_occ_not_In. intros Hin. rewrite Forall_forall in Hx'. apply Hx' in Hin. lia.
    + unfold mult. rewrite count_occ_app, count_opp. rewrite count_occ_cons_eq by auto.
      change (- 0) with 0. lia.
    + intros Hlt. apply StronglySorted_inv in Hlt as [Hlt Hf].
      apply StronglySorted_app.
      * apply opp_sorted with (P := Z.lt); auto. intros; lia.
      * constructor; auto.
      * intros a b Ha Hb. rewrite Forall_forall in Hf, Hp.
        apply in_map_iff in Ha as (a' & <- & Ha). apply in_rev in Ha.
        apply Hf in Ha. apply Hp in Hb. lia.
  - assert (Hpos : forall y, In y (x :: l) -> 0 < y).
    { intros y [<-|Hy]; [lia|]. rewrite Forall_forall in Hx'. apply Hx' in Hy. lia. }
    eexists; split; [reflexivity|]. split; [apply symmetrize_app_symmetric|]. split; [|split; [|split]].
    + apply StronglySorted_app; auto.
      * apply opp_sorted with (P := Z.le); auto. intros; lia.
      * intros a b Ha Hb. apply in_map_iff in Ha as (a' & <- & Ha). apply in_rev in Ha.
        apply Hpos in Ha. apply Hpos in Hb. lia.
    + intros n Hn. unfold mult. rewrite count_occ_app, count_opp.
      destruct (Z_lt_le_dec n 0).
      * replace (Z.abs n) with (- n) by lia. pose proof (Hmult0 n ltac:(lia)) as Hz. unfold mult in Hz. rewrite Hz. apply Nat.add_0_r.
      * replace (Z.abs n) with n by lia. pose proof (Hmult0 (- n) ltac:(lia)) as Hz. unfold mult in Hz. rewrite Hz. reflexivity.
    + unfold mult. rewrite count_occ_app, count_opp.
      change (- 0) with 0.
      assert (E0 : count_occ Z.eq_dec (x :: l) 0 = 0%nat).
      { apply count_occ_not_In. intros Hin. apply Hpos in Hin. lia. }
      rewrite E0. reflexivity.
    + intros Hlt. apply StronglySorted_app; auto.
      * apply opp_sorted with (P := Z.lt); auto. intros; lia.
      * intros a b Ha Hb. apply in_map_iff in Ha as (a' & <- & Ha). apply in_rev in Ha.
        apply Hpos in Ha. apply Hpos in Hb. lia.
Qed.

Lemma symmetrize_raise l :
  ~ (StronglySorted Z.le l /\ Forall (fun x => 0 <= x) l) -> symmetrize l = Raise ValueError.
Proof.
  intros H. destruct l as [|x l]; [destruct H; split; constructor|].
  unfold symmetrize. destruct (nondecreasing (x :: l)) eqn:E; cbn [negb]; auto.
  destruct (Z.leb_spec 0 x); cbn [negb]; auto. exfalso. apply H.
  apply nondecreasing_spec in E. split; auto.
  apply StronglySorted_inv in E as [_ E]. constructor; auto. eapply Forall_impl; [|exact E].
  intros; simpl in *; lia.
Qed.

Lemma symmetrize_inv l r : symmetrize l = Ok r ->
  StronglySorted Z.le l /\ Forall (fun x => 0 <= x) l.
Proof.
  intros H. destruct l as [|x l]; [split; constructor|].
  unfold symmetrize in H.
  destruct (nondecreasing (x :: l)) eqn:E; cbn [negb] in H; [|discriminate].
  destruct (Z.leb_spec 0 x); cbn [negb] in H; [|discriminate].
  apply nondecreasing_spec in E. split; auto.
  apply StronglySorted_inv in E as [_ E]. constructor; auto. eapply Forall_impl; [|exact E].
  intros; simpl in *; lia.
Qed.

Lemma symmetrize_in l r n : symmetrize l = Ok r -> (In n r <-> In (Z.abs n) l).
Proof.
  intros H. destruct (symmetrize_inv _ _ H) as [H1 H2].
  destruct (symmetrize_ok l H1 H2) as (r' & E & _ & _ & Hm & Hm0 & _).
  rewrite E in H. injection H as ->.
  rewrite !(count_occ_In Z.eq_dec). fold (mult r n). fold (mult l (Z.abs n)).
  destruct (Z.eq_dec n 0) as [->|Hn].
  - rewrite Hm0. change (Z.abs 0) with 0. lia.
  - rewrite Hm by auto. tauto.
Qed.

(** * The shift to reduced frequencies *)
Lemma shift_parity q r : (2 * r + zeta q) mod 2 = zeta q.
Proof. rewrite Z.add_comm, Z.mul_comm, Z_mod_plus_full. destruct q; reflexivity. Qed.

Lemma shift_sorted q l : StronglySorted Z.lt l -> StronglySorted Z.lt (map (fun r => 2 * r + zeta q) l).
Proof. apply StronglySorted_map. intros; lia. Qed.

Definition parity_of (q : freq) (n : Z) : Prop := n mod 2 = zeta q.

Lemma finish_props q po x0 wn :
  finish q po x0 = Ok wn -> Forall (fun x => 0 <= x) x0 ->
  Forall (parity_of q) wn /\
  (po = true -> Forall (fun n => 0 <= n) wn) /\
  (po = false -> symmetric wn) /\
  (StronglySorted Z.lt x0 -> StronglySorted Z.lt wn).
Proof.
  unfold finish. destruct po; intros H Hp.
  - injection H as <-. split; [|split; [|split]]; try discriminate.
    + apply Forall_map, Forall_forall. intros r _. apply shift_parity.
    + intros _. apply Forall_map. eapply Forall_impl; [|exact Hp]. intros r Hr.
      assert (Hz : 0 <= 2 * r + zeta q) by (cbv beta in Hr; unfold zeta; destruct q; lia). exact Hz.
    + apply shift_sorted.
  - destruct (symmetrize_inv _ _ H) as [H1 H2].
    destruct (symmetrize_ok _ H1 H2) as (r' & E & Hsym & _ & _ & _ & Hst).
    assert (r' = wn) by congruence. subst r'.
    split; [|split; [|split]]; try discriminate; auto.
    + apply Forall_forall. intros n Hn. apply (symmetrize_in _ _ _ H) in Hn.
      apply in_map_iff in Hn as (r & Hr & _). unfold parity_of.
      destruct (Z.abs_spec n) as [[_ En]|[_ En]].
      * rewrite <- En, <- Hr. apply shift_parity.
      * replace n with (2 * (- r - zeta q) + zeta q) by lia. apply shift_parity.
    + intros Hs. apply Hst, shift_sorted; auto.
Qed.

Lemma finish_strict_ok q po x0 :
  StronglySorted Z.lt x0 -> Forall (fun x => 0 <= x) x0 -> exists wn, finish q po x0 = Ok wn.
Proof.
  intros Hs Hp. unfold finish. destruct po; eauto.
  destruct (symmetrize_ok (map (fun r => 2 * r + zeta q) x0)) as (r & E & _); eauto.
  - eapply StronglySorted_impl; [|apply shift_sorted; eauto]. intros; lia.
  - apply Forall_map. eapply Forall_impl; [|exact Hp]. intros r Hr.
    assert (Hz : 0 <= 2 * r + zeta q) by (cbv beta in Hr; unfold zeta; destruct q; lia). exact Hz.
Qed.

(** * Fencing *)
Lemma round40_opp w : round40 (- w) = - round40 w.
Proof.
  unfold round40.
  pose proof (Z.div_mod (w + 20) 40 ltac:(lia)). pose proof (Z.mod_pos_bound (w + 20) 40 ltac:(lia)).
  pose proof (Z.div_mod (- w + 20) 40 ltac:(lia)). pose proof (Z.mod_pos_bound (- w + 20) 40 ltac:(lia)).
  set (q := (w + 20) / 40) in *. set (r := (w + 20) mod 40) in *.
  set (q' := (- w + 20) / 40) in *. set (r' := (- w + 20) mod 40) in *.
  destruct (Z.eqb_spec r 0), (Z.eqb_spec r' 0); try lia.
  assert (q' = 1 - q) by lia. clearbody q q'. subst q'.
  rewrite Z.even_sub. change (Z.even 1) with false. destruct (Z.even q); cbv [Bool.eqb]; lia.
Qed.

Lemma round40_bounds w : 0 <= w -> 0 <= round40 w /\ 2 * round40 w <= w.
Proof.
  intros Hw. unfold round40.
  pose proof (Z.div_mod (w + 20) 40 ltac:(lia)). pose proof (Z.mod_pos_bound (w + 20) 40 ltac:(lia)).
  set (q := (w + 20) / 40) in *. set (r := (w + 20) mod 40) in *.
  destruct (Z.eqb_spec r 0).
  - assert (1 <= q) by lia. destruct (Z.even q); lia.
  - assert (0 <= q) by lia. destruct (Z.eq_dec q 0); lia.
Qed.

Definition shift40 (w : Z) : Z := 2 * round40 w.

Lemma outer_points_in wn po o : outer_points wn po = Ok o -> forall w, In w o -> In w wn.
Proof.
  unfold outer_points. destruct wn as [|x l]; [destruct po; intros [= <-] w []|].
  destruct (rev (x :: l)) as [|y l'] eqn:E.
  - apply (f_equal (@length _)) in E. rewrite rev_length in E. discriminate.
  - assert (Hy : In y (x :: l)) by (apply in_rev; rewrite E; left; auto).
    destruct po; intros [= <-] w; simpl; intuition (subst; auto).
Qed.

Lemma fence_in wn po wn' n : fence_sampling wn po = Ok wn' ->
  (In n wn' <-> In n wn \/
     exists o, outer_points wn po = Ok o /\
       (((20 <= length wn)%nat /\ exists w, In w o /\ n = w - Z.sgn w * shift40 w) \/
        (((if po then 41 else 40) <= length wn)%nat /\ exists w, In w o /\ n = w + Z.sgn w * shift40 w))).
Proof.
  unfold fence_sampling. destruct (outer_points wn po) as [o|e] eqn:Eo; cbn [bind]; [|discriminate].
  intros [= <-]. unfold fence_points. cbv zeta. rewrite zunique_in.
  assert (Hlen : (20 <= length wn)%nat -> length o = if po then 1%nat else 2%nat).
  { unfold outer_points in Eo. destruct wn as [|x l]; [simpl; lia|].
    destruct (rev (x :: l)) as [|y l'] eqn:E.
    - apply (f_equal (@length _)) in E. rewrite rev_length in E. discriminate.
    - intros _. destruct po; injection Eo as <-; auto. }
  assert (Hm2 : forall g : Z -> Z -> Z, map2 g o (map (fun w => 2 * round40 w) o) = map (fun w => g w (shift40 w)) o).
  { intros g. clear. induction o as [|w o IH]; cbn [map map2]; auto. f_equal. apply IH. }
  rewrite !Hm2. cbv beta.
  assert (Hin : forall g : Z -> Z -> Z, In n (map (fun w => g w (shift40 w)) o) <-> exists w, In w o /\ n = g w (shift40 w)).
  { intros g. rewrite in_map_iff. split; intros (w & H1 & H2); exists w; auto. }
  destruct (Nat.leb_spec 20 (length wn)) as [H20|H20].
  - assert (Hl : (length (wn ++ map (fun w => (w - Z.sgn w * shift40 w)%Z) o) = length wn + (if po then 1 else 2))%nat).
    { rewrite app_length, map_length, Hlen; auto. }
    rewrite Hl.
    destruct (Nat.leb_spec 42 (length wn + (if po then 1 else 2))) as [H42|H42].
    + rewrite !in_app_iff, (Hin (fun w d => w - Z.sgn w * d)), (Hin (fun w d => w + Z.sgn w * d)).
      split.
      * intros [[H|H]|H]; auto; right; exists o; split; auto. right; split; auto. destruct po; lia.
      * intros [H|(o' & [= <-] & [[_ H]|[_ H]])]; auto.
    + rewrite !in_app_iff, (Hin (fun w d => w - Z.sgn w * d)). split.
      * intros [H|H]; auto; right; exists o; split; auto.
      * intros [H|(o' & [= <-] & [[_ H]|[Hb H]])]; auto. exfalso. destruct po; lia.
  - destruct (Nat.leb_spec 42 (length wn)); [lia|].
    split; auto. intros [H'|(o' & _ & [[H' _]|[H' _]])]; auto; exfalso; [lia|destruct po; lia].
Qed.

Lemma fence_sorted wn po wn' : fence_sampling wn po = Ok wn' -> StronglySorted Z.lt wn'.
Proof.
  unfold fence_sampling. destruct (outer_points wn po); cbn [bind]; [|discriminate].
  intros [= <-]. apply zunique_sorted.
Qed.

Lemma fence_ok wn po : wn <> [] \/ po = true -> exists wn', fence_sampling wn po = Ok wn'.
Proof.
  intros H. unfold fence_sampling, outer_points. destruct wn as [|x l].
  - destruct H as [H| ->]; [congruence|]. eexists; reflexivity.
  - destruct (rev (x :: l)) as [|y l'] eqn:E.
    + apply (f_equal (@length _)) in E. rewrite rev_length in E. discriminate.
    + destruct po; eexists; reflexivity.
Qed.

Lemma fence_empty : fence_sampling [] false = Raise IndexError.
Proof. reflexivity. Qed.

Lemma shift40_even w : (shift40 w) mod 2 = 0.
Proof. unfold shift40. rewrite Z.mul_comm. apply Z_mod_mult. Qed.

Lemma mod2_shift a b k : a mod 2 = k -> b mod 2 = 0 -> (a + b) mod 2 = k /\ (a - b) mod 2 = k.
Proof.
  intros Ha Hb.
  split; [rewrite Z.add_mod|rewrite Zminus_mod]; rewrite ?Ha, ?Hb; try lia;
    rewrite ?Z.add_0_r, ?Z.sub_0_r; rewrite <- Ha at 1; rewrite Z.mod_mod; lia.
Qed.

Lemma sgn_shift_even w : (Z.sgn w * shift40 w) mod 2 = 0.
Proof. rewrite Z.mul_mod, shift40_even, Z.mul_0_r by lia. reflexivity. Qed.

Lemma fence_parity wn po wn' k : fence_sampling wn po = Ok wn' ->
  Forall (fun n => n mod 2 = k) wn -> Forall (fun n => n mod 2 = k) wn'.
Proof.
  intros H Hp. rewrite Forall_forall in *. intros n Hn.
  apply (fence_in _ _ _ _ H) in Hn as [Hn|(o & Ho & Hn)]; auto.
  destruct Hn as [[_ (w & Hw & ->)]|[_ (w & Hw & ->)]];
    apply (outer_points_in _ _ _ Ho) in Hw; apply Hp in Hw;
    apply (mod2_shift _ _ _ Hw (sgn_shift_even w)).
Qed.

Lemma fence_nonneg wn po wn' : fence_sampling wn po = Ok wn' ->
  Forall (fun n => 0 <= n) wn -> Forall (fun n => 0 <= n) wn'.
Proof.
  intros H Hp. rewrite Forall_forall in *. intros n Hn.
  apply (fence_in _ _ _ _ H) in Hn as [Hn|(o & Ho & Hn)]; auto.
  destruct Hn as [[_ (w & Hw & ->)]|[_ (w & Hw & ->)]];
    apply (outer_points_in _ _ _ Ho) in Hw; apply Hp in Hw; unfold shift40;
    pose proof (round40_bounds w Hw); destruct (Z.sgn_spec w) as [[? ->]|[[? ->]|[? ->]]]; lia.
Qed.

Lemma fence_count wn po wn' : fence_sampling wn po = Ok wn' -> NoDup wn ->
  (length wn' <= length wn + (if (20 <=? length wn)%nat then if po then 1 else 2 else 0)
                 + (if ((if po then 41 else 40) <=? length wn)%nat then if po then 1 else 2 else 0))%nat.
Proof.
  unfold fence_sampling. destruct (outer_points wn po) as [o|e] eqn:Eo; cbn [bind]; [|discriminate].
  intros [= <-] _. unfold fence_points. cbv zeta.
  assert (Hlen : length (map (fun w => 2 * round40 w) o) = length o) by apply map_length.
  assert (Ho : (length o <= if po then 1 else 2)%nat).
  { unfold outer_points in Eo. destruct wn as [|x l].
    - destruct po; inversion Eo; simpl; lia.
    - destruct (rev (x :: l)); destruct po; inversion Eo; simpl; lia. }
  assert (Hu : forall l, (length (zunique l) <= length l)%nat).
  { intros l. unfold zunique. rewrite dedup_length.
    rewrite <- (Permutation_length (zsort_perm l)). auto. }
  rewrite Hu.
  assert (Hm : forall g : Z -> Z -> Z, (length (map2 g o (map (fun w => (2 * round40 w)%Z) o)) = length o)%nat).
  { intros g. rewrite map2_length, Hlen. lia. }
  destruct (Nat.leb_spec 20 (length wn)).
  - rewrite app_length, Hm.
    destruct (Nat.leb_spec 42 (length wn + length o)).
    + rewrite !app_length, !Hm. destruct (Nat.leb_spec (if po then 41 else 40)%nat (length wn)); destruct po; lia.
    + rewrite app_length, Hm. destruct po; lia.
  - destruct (Nat.leb_spec 42 (length wn)); [lia|]. destruct po; lia.
Qed.

(** Symmetry of the fenced points. *)
Lemma sym_outer wn W : symmetric wn -> StronglySorted Z.lt wn -> In W wn ->
  (forall n, In n wn -> n <= W) -> outer_points wn false = Ok [- W; W].
Proof.
  intros Hsym Hs HW Hmax. unfold outer_points.
  destruct wn as [|x l]; [destruct HW|].
  destruct (rev (x :: l)) as [|y l'] eqn:E.
  - apply (f_equal (@length _)) in E. rewrite rev_length in E. discriminate.
  - assert (Hy : y = W).
    { assert (Hs' : StronglySorted (fun a b => b < a) (y :: l')).
      { rewrite <- E. apply StronglySorted_rev with (P := Z.lt); auto. }
      assert (Hin : In W (y :: l')) by (rewrite <- E, <- in_rev; auto).
      assert (In y (x :: l)) by (apply in_rev; rewrite E; left; auto).
      destruct Hin as [|Hin]; auto. apply StronglySorted_inv in Hs' as [_ Hf].
      rewrite Forall_forall in Hf. apply Hf in Hin. apply Hmax in H. lia. }
    unfold symmetric in Hsym. rewrite E in Hsym. cbn [map] in Hsym. injection Hsym as Hx _.
    rewrite <- Hx, Hy. reflexivity.
Qed.

Lemma symmetric_neg_closed l : symmetric l -> neg_closed l.
Proof.
  intros H n Hn. rewrite <- H. apply in_map_iff. exists n. split; auto. apply -> in_rev. auto.
Qed.

Lemma neg_closed_symmetric l : StronglySorted Z.lt l -> neg_closed l -> symmetric l.
Proof.
  intros Hs Hn. unfold symmetric. apply zlt_sorted_ext; auto.
  - apply opp_sorted with (P := Z.lt); auto. intros; lia.
  - intros n. rewrite in_map_iff. split.
    + intros (m & <- & Hm). apply in_rev in Hm. auto.
    + intros H. exists (- n). split; [lia|]. apply -> in_rev. auto.
Qed.

Lemma fence_symmetry wn wn' W :
  symmetric wn -> StronglySorted Z.lt wn -> In W wn -> (forall n, In n wn -> n <= W) -> 0 <= W ->
  fence_sampling wn false = Ok wn' ->
  (symmetric wn' <-> (length wn < 20)%nat \/ (40 <= length wn)%nat \/ round40 W = 0).
Proof.
  intros Hsym Hs HW Hmax Hpos Hf.
  pose proof (sym_outer _ _ Hsym Hs HW Hmax) as Ho.
  assert (Hin : forall n, In n wn' <-> In n wn \/
     ((20 <= length wn)%nat /\ (n = - W - Z.sgn W * shift40 W \/ n = W - Z.sgn W * shift40 W)) \/
     ((40 <= length wn)%nat /\ (n = - W + Z.sgn W * shift40 W \/ n = W + Z.sgn W * shift40 W))).
  { intros n. rewrite (fence_in _ _ _ n Hf). unfold shift40. split.
    - intros [H|(o & E & H)]; auto. rewrite Ho in E. injection E as <-.
      destruct H as [[H1 (w & [<-|[<-|[]]] & ->)]|[H1 (w & [<-|[<-|[]]] & ->)]];
        rewrite ?round40_opp, ?Z.sgn_opp; right;
        [left; split; auto; left; lia|left; split; auto|right; split; auto; left; lia|right; split; auto].
    - intros [H|[[H1 H]|[H1 H]]]; auto; right; exists [- W; W]; split; auto.
      + left; split; auto. destruct H as [->| ->].
        * exists (- W). split; [left; auto|]. rewrite round40_opp, Z.sgn_opp. lia.
        * exists W. split; [right; left; auto|]. lia.
      + right; split; auto. destruct H as [->| ->].
        * exists (- W). split; [left; auto|]. rewrite round40_opp, Z.sgn_opp. lia.
        * exists W. split; [right; left; auto|]. lia. }
  pose proof (symmetric_neg_closed _ Hsym) as Hneg.
  pose proof (round40_bounds W Hpos) as [Hr1 Hr2].
  split.
  - intros Hs'. apply symmetric_neg_closed in Hs'.
    destruct (le_lt_dec 20 (length wn)) as [H20|H20]; auto.
    destruct (le_lt_dec 40 (length wn)) as [H40|H40]; auto.
    destruct (Z.eq_dec (round40 W) 0) as [|Hne]; auto. exfalso.
    assert (HW0 : 0 < W). { destruct (Z.eq_dec W 0) as [->|]; [exfalso; apply Hne; reflexivity|lia]. }
    assert (Z.sgn W = 1) by (apply Z.sgn_pos; auto).
    assert (H1 : In (- W - shift40 W) wn').
    { apply Hin. right; left; split; auto. left; lia. }
    apply Hs' in H1. apply Hin in H1. unfold shift40 in *. destruct H1 as [H1|[[_ H1]|[H1 _]]]; [|lia|lia].
    apply Hmax in H1. lia.
  - intros Hc. apply neg_closed_symmetric; [eapply fence_sorted; eauto|].
    intros n Hn. apply Hin. apply Hin in Hn. unfold shift40 in *.
    destruct Hn as [Hn|[[H1 Hn]|[H1 Hn]]]; auto.
    + destruct Hc as [Hc|[Hc|Hc]]; [lia| |].
      * right; right; split; auto. destruct Hn as [->| ->]; [right|left]; lia.
      * left. rewrite Hc in Hn. destruct Hn as [->| ->].
        -- replace (- (- W - Z.sgn W * (2 * 0))) with W by lia. auto.
        -- replace (- (W - Z.sgn W * (2 * 0))) with (- W) by lia. auto.
    + right; left; split; [lia|]. destruct Hn as [->| ->]; [right|left]; lia.
Qed.

Lemma fence_superset wn po wn' n : fence_sampling wn po = Ok wn' -> In n wn -> In n wn'.
Proof. intros H Hn. apply (fence_in _ _ _ _ H). auto. Qed.

Lemma fence_structure wn po wn' k :
  fence_sampling wn po = Ok wn' -> StronglySorted Z.lt wn ->
  StronglySorted Z.lt wn' /\
  (forall n, In n wn -> In n wn') /\
  (Forall (fun n => n mod 2 = k) wn -> Forall (fun n => n mod 2 = k) wn') /\
  (Forall (fun n => 0 <= n) wn -> Forall (fun n => 0 <= n) wn') /\
  (length wn' <= length wn + (if (20 <=? length wn)%nat then if po then 1 else 2 else 0)
                 + (if ((if po then 41 else 40) <=? length wn)%nat then if po then 1 else 2 else 0))%nat.
Proof.
  intros H Hs. split; [eapply fence_sorted; eauto|]. split; [intros n; eapply fence_superset; eauto|].
  split; [eapply fence_parity; eauto|]. split; [eapply fence_nonneg; eauto|].
  eapply fence_count; eauto. apply strict_sorted_nodup; auto.
Qed.
