From Coq Require Import Reals Lra.
From Coquelicot Require Import Coquelicot.
From Coq Require Import List ZArith Bool Lia Permutation Sorted Arith.
From Flocq Require Import Core.
From Verif.Model Require Import Base Num Roots Poly PolyIEEE IEEE DefaultsIEEE.
From Verif.Spec Require Import SRoots SPoly SPolyIEEE SDefaultsIEEE.
From Verif.Proofs Require Import BaseFacts RootsFacts RootsCont IEEEFacts RootsIEEE PolyRound ComputeMerged.
Import ListNotations.
Open Scope R_scope.

(** * Bisection in doubles *)
Section Flip.
Context {V : Type} (signbit : V -> bool) (f : R -> V) (M : R).
Hypothesis HM : is_double M.
Hypothesis HMbig : bpow radix2 (-970) <= M.
Let xeps := rnd64 (eps64 * M).

Definition inv_flip (c : bracket R V) : Prop :=
  inv64 M c /\ bfa c = f (ba c) /\ signbit (f (ba c)) <> signbit (f (bb c)).
Definition rel_flip (c : bracket R V) (r : R) : Prop :=
  is_double r /\ ba c <= r <= bb c /\
  exists a b, ba c <= a /\ b <= bb c /\ a <= r <= b /\ b - a <= eps64 * M /\ signbit (f a) <> signbit (f b).

Lemma inv_flip_next c : inv_flip c -> inv_flip (rnext rnd64 signbit f c) /\
  ba c <= ba (rnext rnd64 signbit f c) /\ bb (rnext rnd64 signbit f c) <= bb c /\
  ba (rnext rnd64 signbit f c) <= rmid rnd64 c <= bb (rnext rnd64 signbit f c).
Proof.
  intros (H & H2 & H3). pose proof (inv64_next signbit f M c H) as Hn. destruct H as (A1 & A2 & A3 & _).
  pose proof (mid64_range _ _ A1 A2 A3) as Hm. split; [split; [exact Hn|]|].
  - unfold rnext, halve. rewrite H2. destruct (Bool.eqb _ _) eqn:E; cbn.
    + apply Bool.eqb_prop in E. split; [reflexivity|]. unfold rmid in *. congruence.
    + apply Bool.eqb_false_iff in E. split; [reflexivity|]. exact E.
  - unfold rnext, halve. fold (rmid rnd64 c) in Hm |- *. destruct (negb _); cbn; unfold rmid in *; lra.
Qed.

Lemma bisect_flip k : k <> [] -> Forall inv_flip k ->
  exists rs rs', ends_with (fun fuel => bisect_cont rnd64 signbit f xeps fuel k) rs /\ Permutation rs rs' /\ Forall2 rel_flip k rs'.
Proof.
  intros Hne Hk. apply bisect_cont_ends with (Inv := inv_flip) (mu := mu64); auto.
  - intros c Hc. apply inv_flip_next. exact Hc.
  - intros c Hc Hf. destruct (inv_flip_next c Hc) as ((N & _ & N2) & N3 & N4 & N5). split; [apply rnd64_double|]. split; [lra|].
    exists (ba (rnext rnd64 signbit f c)), (bb (rnext rnd64 signbit f c)). split; [exact N3|]. split; [exact N4|]. split; [exact N5|]. split; [|exact N2].
    unfold rfound in Hf. apply Rltb_true in Hf. rewrite eps64_bpow. pose proof (xeps_eq M HM HMbig) as X. fold xeps in X. rewrite <- X.
    destruct (Rle_or_lt (bb (rnext rnd64 signbit f c) - ba (rnext rnd64 signbit f c)) xeps) as [L|L]; [exact L|]. exfalso.
    assert (xeps <= rnd64 (bb (rnext rnd64 signbit f c) - ba (rnext rnd64 signbit f c))) by (apply rnd64_ge; [apply rnd64_double|lra]). lra.
  - intros c r Hc (Hd & Hr & a & b & B1 & B2 & B3 & B4 & B5). destruct (inv_flip_next c Hc) as (_ & N3 & N4 & _). split; [exact Hd|]. split; [lra|].
    exists a, b. repeat split; auto; lra.
  - intros c (Hc & _) Hf. apply (mu64_next signbit f M HM HMbig); assumption.
Qed.
End Flip.

Lemma sorted_app {A} (r : A -> A -> Prop) l1 l2 : StronglySorted r l1 -> StronglySorted r l2 -> (forall x y, In x l1 -> In y l2 -> r x y) -> StronglySorted r (l1 ++ l2).
Proof.
  induction 1 as [|x l1 S IH F]; intros S2 H; [exact S2|]. cbn. constructor.
  - apply IH; [exact S2|]. intros a b Ha Hb. apply H; [right; exact Ha|exact Hb].
  - apply Forall_app. split; [exact F|]. apply Forall_forall. intros y Hy. apply H; [left; reflexivity|exact Hy].
Qed.

Lemma adjacent_le l a b : StronglySorted Rle l -> adjacent l a b -> a <= b.
Proof. intros Hs (l1 & l2 & ->). apply StronglySorted_app_inv in Hs as (_ & H2 & _). apply StronglySorted_inv in H2 as [_ H2]. inversion H2; auto. Qed.
Lemma adjacent_next l a b c : StronglySorted Rle l -> adjacent l a b -> In c l -> a < c -> b <= c.
Proof.
  intros Hs (l1 & l2 & ->) Hc Hac. apply StronglySorted_app_inv in Hs as (_ & H2 & H3). apply in_app_or in Hc as [Hc|[<-|[<-|Hc]]]; try lra.
  - specialize (H3 c a Hc (or_introl eq_refl)). lra.
  - apply StronglySorted_inv in H2 as [H2 _]. apply StronglySorted_inv in H2 as [_ H2]. rewrite Forall_forall in H2. apply H2. exact Hc.
Qed.

Lemma rsort_sorted l : StronglySorted Rle (sort_by Rleb l).
Proof.
  assert (Ins : forall x l, StronglySorted Rle l -> StronglySorted Rle (insert_by Rleb x l)).
  { intros x k. induction 1 as [|y k S IH F]; cbn; [repeat constructor|]. destruct (Rleb x y) eqn:E.
    - apply Rleb_true in E. constructor; [constructor; assumption|]. constructor; [exact E|]. eapply Forall_impl; [|exact F]. cbn. intros; lra.
    - assert (y < x) by (destruct (Rle_or_lt x y) as [L|L]; [apply Rleb_true in L; congruence|exact L]). constructor; [exact IH|].
      apply Forall_forall. intros z Hz. assert (P : In z (x :: k)). { clear -Hz. induction k as [|w k IH]; cbn in *; [exact Hz|]. destruct (Rleb x w); cbn in *; tauto. }
      destruct P as [<-|P]; [lra|]. rewrite Forall_forall in F. apply F. exact P. }
  induction l as [|x l IH]; cbn; [constructor|]. apply Ins. exact IH.
Qed.

Lemma find_all_flip {V} (signbit iszero : V -> bool) (f : R -> V) grid :
  StronglySorted Rle grid -> Forall is_double grid -> bpow radix2 (-970) <= maxabs grid ->
  exists rs, ends_with (fun fuel => find_all_cont rnd64 signbit iszero fuel f grid) rs /\
    StronglySorted Rle rs /\ Forall is_double rs /\
    (forall x, In x grid -> iszero (f x) = true -> In x rs) /\
    (forall a b, adjacent grid a b -> sign_interval signbit iszero f a b -> exists r, In r rs /\ a <= r <= b) /\
    (forall r, In r rs ->
       (In r grid /\ iszero (f r) = true) \/
       (exists a b, adjacent grid a b /\ sign_interval signbit iszero f a b /\ a <= r <= b /\
          exists a' b', a <= a' /\ b' <= b /\ a' <= r <= b' /\ b' - a' <= eps64 * maxabs grid /\ signbit (f a') <> signbit (f b'))).
Proof.
  intros Hg Hd HM.
  set (hits := filter (fun x => iszero (f x)) grid).
  remember (map (mk f) (filter (sc_pair signbit iszero f) (pairs grid))) as brs eqn:Hbrs.
  assert (Hinv : Forall (inv_flip signbit f (maxabs grid)) brs).
  { subst brs. apply Forall_map, Forall_forall. intros [a b] Hin.
    apply filter_In in Hin as [H1 H2]. apply pairs_adjacent in H1. apply sc_pair_spec in H2 as (_ & _ & H2).
    pose proof (adjacent_in _ _ _ H1) as [Ia Ib]. rewrite Forall_forall in Hd. pose proof (adjacent_le _ _ _ Hg H1) as Hab.
    unfold inv_flip, inv64; cbn. repeat split; auto using maxabs_ge. }
  assert (Hbr : forall a b, adjacent grid a b -> sign_interval signbit iszero f a b -> In (mk f (a, b)) brs).
  { intros a b Ha Hs. subst brs. apply in_map_iff. exists (a, b); split; auto.
    apply filter_In. rewrite pairs_adjacent, sc_pair_spec. auto. }
  assert (Hrb : forall c, In c brs -> exists a b, c = mk f (a, b) /\ adjacent grid a b /\ sign_interval signbit iszero f a b).
  { intros c Hc. subst brs. apply in_map_iff in Hc as ((a & b) & <- & H). apply filter_In in H as (H1 & H2). exists a, b. split; [reflexivity|]. apply pairs_adjacent in H1. apply sc_pair_spec in H2. auto. }
  assert (Hh : forall x, In x hits <-> In x grid /\ iszero (f x) = true) by (intros x; apply filter_In).
  unfold find_all_cont.
  destruct brs as [|c brs'].
  - exists hits. split; [|split; [|split; [|split; [|split]]]].
    + exists 0%nat. intros fuel _. rewrite find_all_unfold, <- Hbrs. reflexivity.
    + apply StronglySorted_filter. exact Hg.
    + apply Forall_forall. intros x Hx. apply Hh in Hx as (Hx & _). rewrite Forall_forall in Hd. auto.
    + intros x Hx Hz. apply Hh; auto.
    + intros a b Ha Hs. destruct (Hbr a b Ha Hs).
    + intros r Hr. left. apply Hh. exact Hr.
  - destruct (bisect_flip signbit f (maxabs grid) (maxabs_double _ Hd) HM (c :: brs')) as (rs & rs' & (n & Hn) & P & F); [discriminate|exact Hinv|].
    assert (Hin : forall x, In x (sort_by Rleb (hits ++ rs)) <-> In x hits \/ In x rs').
    { intros x. rewrite <- (in_app_iff hits rs'). split; apply Permutation_in.
      - etransitivity; [symmetry; apply sort_by_perm|]. apply Permutation_app_head. exact P.
      - etransitivity; [|apply sort_by_perm]. apply Permutation_app_head. symmetry. exact P. }
    exists (sort_by Rleb (hits ++ rs)). split; [|split; [|split; [|split; [|split]]]].
    + exists n. intros fuel Hfuel. rewrite find_all_unfold, <- Hbrs. cbn zeta. rewrite Hn by auto. reflexivity.
    + apply rsort_sorted.
    + apply Forall_forall. intros x Hx. apply Hin in Hx as [Hx|Hx]; [apply Hh in Hx as (Hx & _); rewrite Forall_forall in Hd; auto|]. destruct (Forall2_in_r _ _ _ _ F Hx) as (c0 & _ & D & _). exact D.
    + intros x Hx Hz. apply Hin. left. apply Hh; auto.
    + intros a b Ha Hs. destruct (Forall2_in_l _ _ _ _ F (Hbr a b Ha Hs)) as (r & Hr & _ & Hrr & _). exists r; split; [apply Hin; right; exact Hr|exact Hrr].
    + intros r Hr. apply Hin in Hr as [Hr|Hr]; [left; apply Hh; exact Hr|]. right. destruct (Forall2_in_r _ _ _ _ F Hr) as (c0 & Hc & _ & Hrr & a' & b' & R1 & R2 & R3 & R4 & R5).
      destruct (Hrb c0 Hc) as (a & b & -> & Ha & Hs). exists a, b. cbn in *. split; [exact Ha|]. split; [exact Hs|]. split; [exact Hrr|]. exists a', b'. auto.
Qed.

(** * The grid *)
Lemma step_range a b : is_double a -> is_double b -> a < b -> 0 <= step_rd rnd64 a b 2 <= b - a.
Proof.
  intros Ha Hb Hab. unfold step_rd. change (INR 2) with (1 + 1). replace (1 + 1) with 2 by lra. split.
  - apply rnd64_ge; [apply double_0|]. assert (0 <= rnd64 (b - a)) by (apply rnd64_ge; [apply double_0|lra]). lra.
  - destruct (Rle_or_lt (bpow radix2 (-1021)) (Rabs (b - a))) as [H|H].
    + rewrite Rabs_pos_eq in H by lra.
      assert (R1 : rnd64 (rnd64 (b - a) / 2) = rnd64 (b - a) / 2).
      { rewrite <- half_round by (rewrite Rabs_pos_eq; lra). apply rnd64_id, rnd64_double. }
      rewrite R1. pose proof (rnd64_nearest (b - a) 0 double_0) as N. rewrite (Rabs_left (0 - (b - a))) in N by lra. apply Rabs_le_between in N. lra.
    + assert (D : is_double (b - a)).
      { destruct (double_multiple _ Ha) as (m1 & E1), (double_multiple _ Hb) as (m2 & E2). replace (b - a) with (IZR (m2 - m1) * eta) in * by (rewrite minus_IZR, E1, E2; ring). apply small_multiple_double. exact H. }
      rewrite (rnd64_id (b - a)) by exact D. apply rnd64_le'; [exact D|lra].
Qed.

Fixpoint halved (l : list R) : list R :=
  match l with a :: ((b :: _) as l') => a :: rnd64 (step_rd rnd64 a b 2 + a) :: halved l' | _ => l end.

Lemma last_indep {A} (l : list A) d d' : l <> [] -> last l d = last l d'.
Proof. induction l as [|a [|b l] IH]; intros H; [congruence|reflexivity|]. apply IH. discriminate. Qed.

Lemma pairs_rd_cons rd z a b l alpha : refine_pairs_rd rd z (a :: b :: l) alpha =
  map (fun j => rd ((if z then rd (rd (INR j / INR alpha) * rd (b - a)) else rd (INR j * step_rd rd a b alpha)) + a)) (seq 0 alpha) ++ refine_pairs_rd rd z (b :: l) alpha.
Proof. reflexivity. Qed.

Lemma halved_cons a b l : halved (a :: b :: l) = a :: rnd64 (step_rd rnd64 a b 2 + a) :: halved (b :: l).
Proof. reflexivity. Qed.

Lemma refine_two l : Forall is_double l -> l <> [] -> refine_grid_rd rnd64 l 2 = halved l.
Proof.
  intros D N. unfold refine_grid_rd. generalize (some_step_zero rnd64 l 2) as z. intros z.
  induction D as [|a l Ha D IH]; [congruence|]. destruct l as [|b l]; [reflexivity|].
  specialize (IH ltac:(discriminate)). rewrite halved_cons, pairs_rd_cons, <- app_assoc.
  replace (last (a :: b :: l) 0) with (last (b :: l) 0) by reflexivity. rewrite IH.
  assert (D0 : rnd64 0 = 0) by (apply rnd64_id, double_0). assert (Z0 : rnd64 (0 + a) = a) by (rewrite Rplus_0_l; apply rnd64_id; exact Ha).
  cbn [seq map app]. change (INR 2) with (1 + 1). change (INR 1) with 1. change (INR 0) with 0. replace (1 + 1) with 2 by lra. f_equal.
  - destruct z; [replace (0 / 2) with 0 by lra|]; rewrite ?D0, ?Rmult_0_l, ?D0; exact Z0.
  - f_equal. f_equal. f_equal. unfold step_rd. change (INR 2) with (1 + 1). replace (1 + 1) with 2 by lra. destruct z.
    + replace (rnd64 (1 / 2)) with (/ 2); [f_equal; lra|]. symmetry. replace (1 / 2) with (bpow radix2 (-1)) by (cbn; lra). replace (/ 2) with (bpow radix2 (-1)) by (cbn; lra).
      apply rnd64_id. unfold is_double, fexp64. apply generic_format_bpow. unfold FLT_exp. lia.
    + rewrite Rmult_1_l. apply rnd64_id, rnd64_double.
Qed.

Lemma halved_in l x : In x l -> In x (halved l).
Proof.
  revert x. induction l as [|a [|b l] IH]; intros x H; [exact H|exact H|]. rewrite halved_cons. destruct H as [->|H]; [left; reflexivity|]. right. right. apply IH. exact H.
Qed.

Lemma halved_ok l : Forall is_double l -> StronglySorted Rlt l -> forall lo, Forall (fun x => lo <= x) l ->
  Forall is_double (halved l) /\ StronglySorted Rle (halved l) /\ Forall (fun x => lo <= x <= last l lo) (halved l).
Proof.
  intros D. induction D as [|a l Ha D IH]; intros S lo L; [split; [constructor|split; constructor]|]. destruct l as [|b l].
  { cbn. inversion L; subst. split; [constructor; [exact Ha|constructor]|]. split; [constructor; constructor|]. constructor; [lra|constructor]. }
  apply StronglySorted_inv in S as (S & F). inversion L as [|? ? L1 L2]; subst. destruct (IH S b) as (I1 & I2 & I3).
  { apply StronglySorted_inv in S as (_ & S). constructor; [lra|]. eapply Forall_impl; [|exact S]. cbn. intros; lra. }
  assert (Hb : is_double b) by (inversion D; assumption). assert (Hab : a < b) by (inversion F; assumption).
  pose proof (step_range a b Ha Hb Hab) as R. assert (M1 : a <= rnd64 (step_rd rnd64 a b 2 + a)) by (apply rnd64_ge; [exact Ha|lra]).
  assert (M2 : rnd64 (step_rd rnd64 a b 2 + a) <= b) by (apply rnd64_le'; [exact Hb|lra]).
  assert (Lb : last (a :: b :: l) lo = last (b :: l) b) by (change (last (a :: b :: l) lo) with (last (b :: l) lo); apply last_indep; discriminate).
  assert (Hlb : b <= last (b :: l) b). { rewrite Forall_forall in I3. apply (I3 b). apply halved_in. left. reflexivity. }
  rewrite Lb, halved_cons. split; [constructor; [exact Ha|]; constructor; [apply rnd64_double|exact I1]|]. split.
  - constructor; [constructor; [exact I2|]|]; [|constructor; [exact M1|]]; eapply Forall_impl; try exact I3; cbn; intros; lra.
  - constructor; [lra|]. constructor; [lra|]. eapply Forall_impl; [|exact I3]. cbn. intros; lra.
Qed.

(** * The points searched for a polynomial on [-1, 1] *)
Lemma double_one : is_double 1.
Proof. replace 1 with (bpow radix2 0) by reflexivity. unfold is_double, fexp64. apply generic_format_bpow. unfold FLT_exp. lia. Qed.

Lemma sorted_nth_lt l i j : StronglySorted Rlt l -> (i < j < length l)%nat -> nth i l 0 < nth j l 0.
Proof.
  intros S. revert i j. induction S as [|a l S IH F]; intros i j H; [cbn in H; lia|]. destruct j as [|j]; [lia|]. cbn in H. destruct i as [|i].
  - cbn. rewrite Forall_forall in F. apply F, nth_In. lia.
  - cbn. apply IH. lia.
Qed.

Section Grid.
Context (u eta : R) (p : spoly) (Hp : searchable u eta p).
Notation g := (sgeom p).

Lemma xmid_zero : xmid_rd rnd64 g = 0 /\ rnd64 (gxmax g + gxmin g) = 0.
Proof.
  destruct Hp as (_ & E1 & E2 & _). assert (Z : rnd64 (gxmax g + gxmin g) = 0) by (rewrite E1, E2; replace (1 + -1) with 0 by lra; apply rnd64_id, double_0).
  split; [|exact Z]. unfold xmid_rd. rewrite Z. replace (0 / 2) with 0 by lra. apply rnd64_id, double_0.
Qed.

Lemma knots_range x : In x (gknots g) -> -1 <= x <= 1.
Proof.
  destruct Hp as ((N & L & S & _) & E1 & E2 & _). intros H. destruct (In_nth _ _ 0 H) as (i & Hi & <-). unfold gxmin, gxmax in *. split.
  - destruct i; [lra|]. rewrite <- E1. apply Rlt_le, sorted_nth_lt; [exact S|lia].
  - rewrite <- E2. destruct (Nat.eq_dec i (gnseg g)) as [->|Ni]; [lra|]. apply Rlt_le, sorted_nth_lt; [exact S|lia].
Qed.

Lemma one_knot : In 1 (gknots g).
Proof. destruct Hp as ((N & L & S & _) & E1 & E2 & _). rewrite <- E2. apply nth_In. lia. Qed.

(** where the search starts *)
Definition from : R := if Reqb (csym (scol p)) 0 then -1 else 0.

Lemma knots_ok : StronglySorted Rlt (roots_knots_rd rnd64 p) /\ Forall is_double (roots_knots_rd rnd64 p) /\
  Forall (fun x => from <= x <= 1) (roots_knots_rd rnd64 p) /\ In from (roots_knots_rd rnd64 p) /\ In 1 (roots_knots_rd rnd64 p) /\
  (forall k, In k (gknots g) -> from <= k -> In k (roots_knots_rd rnd64 p)).
Proof.
  pose proof Hp as ((N & L & S & _) & E1 & E2 & D & _). pose proof knots_range as K. pose proof one_knot as O. destruct xmid_zero as (Z & _).
  assert (M1 : In (-1) (gknots g)) by (rewrite <- E1; apply nth_In; lia).
  unfold roots_knots_rd, from. cbv zeta. rewrite Z. destruct (Reqb (csym (scol p)) 0).
  { split; [exact S|]. split; [exact D|]. split; [apply Forall_forall; exact K|]. auto. }
  destruct (Reqb (nth (gnseg g / 2) (gknots g) 0) 0) eqn:E.
  - apply Reqb_true in E. set (m := (gnseg g / 2)%nat) in *. assert (Hm : (m < length (gknots g))%nat) by (rewrite L; apply Nat.div_lt_upper_bound; lia).
    assert (Sp : gknots g = firstn m (gknots g) ++ skipn m (gknots g)) by (symmetry; apply firstn_skipn).
    assert (Sk : skipn m (gknots g) = 0 :: skipn (Datatypes.S m) (gknots g)).
    { rewrite <- E. clear -Hm. revert Hm. generalize (gknots g) as l. induction m as [|m IH]; intros l H; destruct l as [|a l]; cbn in H; try lia; [reflexivity|]. cbn. apply IH. lia. }
    assert (Ss : StronglySorted Rlt (skipn m (gknots g))) by (rewrite Sp in S; apply StronglySorted_app_inv in S; tauto).
    assert (Inn : forall k, In k (skipn m (gknots g)) -> In k (gknots g)) by (intros k Hk; rewrite Sp; apply in_or_app; right; exact Hk).
    assert (Ge : forall k, In k (skipn m (gknots g)) -> 0 <= k).
    { intros k Hk. rewrite Sk in Ss, Hk. destruct Hk as [<-|Hk]; [lra|]. apply StronglySorted_inv in Ss as (_ & F). rewrite Forall_forall in F. apply Rlt_le, F, Hk. }
    assert (All : forall k, In k (gknots g) -> 0 <= k -> In k (skipn m (gknots g))).
    { intros k Hk H0. rewrite Sp in Hk. apply in_app_or in Hk as [Hk|Hk]; [|exact Hk]. exfalso. rewrite Sp, Sk in S. apply StronglySorted_app_inv in S as (_ & _ & S). specialize (S k 0 Hk (or_introl eq_refl)). lra. }
    split; [exact Ss|]. split; [apply Forall_forall; intros x Hx; rewrite Forall_forall in D; auto|]. split; [apply Forall_forall; intros x Hx; split; [apply Ge; exact Hx|apply K; auto]|].
    split; [rewrite Sk; left; reflexivity|]. split; [apply All; [exact O|lra]|]. exact All.
  - assert (F : forall k, In k (filter (fun k => Rltb 0 k) (gknots g)) <-> In k (gknots g) /\ 0 < k).
    { intros k. rewrite filter_In, Rltb_true. reflexivity. }
    split; [constructor; [apply StronglySorted_filter; exact S|apply Forall_forall; intros k Hk; apply F in Hk; tauto]|].
    split; [constructor; [apply double_0|apply Forall_forall; intros k Hk; apply F in Hk as (Hk & _); rewrite Forall_forall in D; auto]|].
    split; [constructor; [lra|apply Forall_forall; intros k Hk; apply F in Hk as (Hk & H0); split; [lra|apply K; exact Hk]]|].
    split; [left; reflexivity|]. split; [right; apply F; split; [exact O|lra]|].
    intros k Hk H0. destruct (Req_dec k 0) as [->|N0]; [left; reflexivity|]. right. apply F. split; [exact Hk|lra].
Qed.

Notation G := (refine_grid_rd rnd64 (roots_knots_rd rnd64 p) 2).
Lemma grid_ok : StronglySorted Rle G /\ Forall is_double G /\ Forall (fun x => from <= x <= 1) G /\ In from G /\ In 1 G /\
  (forall k, In k (gknots g) -> from <= k -> In k G) /\ maxabs G = 1.
Proof.
  destruct knots_ok as (K1 & K2 & K3 & K4 & K5 & K6). assert (Ne : roots_knots_rd rnd64 p <> []) by (intros E; rewrite E in K4; exact K4).
  rewrite (refine_two _ K2 Ne). destruct (halved_ok _ K2 K1 from) as (A1 & A2 & A3); [eapply Forall_impl; [|exact K3]; cbn; tauto|].
  assert (La : last (roots_knots_rd rnd64 p) from <= 1). { rewrite Forall_forall in K3. apply K3. apply exists_last in Ne as (l & a & ->). rewrite last_last. apply in_or_app; right; left; reflexivity. }
  assert (B : Forall (fun x => from <= x <= 1) (halved (roots_knots_rd rnd64 p))) by (eapply Forall_impl; [|exact A3]; cbn; intros; lra).
  assert (O : In 1 (halved (roots_knots_rd rnd64 p))) by (apply halved_in; exact K5).
  split; [exact A2|]. split; [exact A1|]. split; [exact B|]. split; [apply halved_in; exact K4|]. split; [exact O|]. split; [intros k H1 H2; apply halved_in; auto|].
  apply Rle_antisym.
  - assert (Fr : -1 <= from) by (unfold from; destruct (Reqb _ _); lra). revert B. generalize (halved (roots_knots_rd rnd64 p)) as l. intros l Hl. unfold maxabs. induction Hl as [|x l Hx Hl IH]; cbn; [lra|]. apply Rmax_lub; [|exact IH]. apply Rabs_le. lra.
  - rewrite <- (Rabs_pos_eq 1) at 1 by lra. apply maxabs_ge. exact O.
Qed.

(** neighbouring points of the grid lie in one segment *)
Lemma grid_segment a b : adjacent G a b -> a < b -> exists i, (i < gnseg g)%nat /\ knot g i <= a /\ b <= knot g (S i).
Proof.
  intros H Hab. destruct grid_ok as (S & _ & B & _ & _ & K & _). pose proof (adjacent_in _ _ _ H) as (Ia & Ib). rewrite Forall_forall in B. pose proof (B a Ia) as Ba. pose proof (B b Ib) as Bb.
  pose proof Hp as (Gn & E1 & E2 & _). assert (Fr : -1 <= from) by (unfold from; destruct (Reqb _ _); lra).
  destruct (segment_exists u eta g a Gn) as (i & (I1 & I2 & I3) & _); [rewrite E1, E2; lra|]. exists i. split; [exact I1|]. split; [exact I2|].
  destruct I3 as [I3|(_ & I3)]; [|lra]. apply (adjacent_next G a b); [exact S|exact H| |exact I3].
  apply K; [|lra]. destruct Gn as (_ & L & _). apply nth_In. lia.
Qed.
End Grid.
