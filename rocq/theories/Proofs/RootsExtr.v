From Coq Require Import List ZArith Bool Reals Lia Lra Permutation Sorted Arith.
From Verif.Model Require Import Base Roots.
From Verif.Spec Require Import SRoots.
From Verif.Proofs Require Import BaseFacts RootsFacts.
Import ListNotations.

Section Extr.
Variable f : Z -> R.

Lemma bisect_extremum_mono fuel a b fa fb r :
  bisect_extremum f fuel a b fa fb = Some r -> bisect_extremum f (S fuel) a b fa fb = Some r.
Proof.
  revert a b fa fb; induction fuel as [|fuel IH]; intros a b fa fb; [discriminate|].
  cbn [bisect_extremum].
  destruct (b - a <=? 1)%Z; auto. destruct (b - a =? 2)%Z; auto.
  destruct (Rltb _ _); intros H; apply IH in H; exact H.
Qed.

Lemma bisect_extremum_mono' n fuel a b fa fb r :
  bisect_extremum f n a b fa fb = Some r -> n <= fuel -> bisect_extremum f fuel a b fa fb = Some r.
Proof. intros H Hle. induction Hle; auto using bisect_extremum_mono. Qed.

Lemma bisect_extremum_inv a0 b0 : forall N a b fa fb fuel,
  (Z.to_nat (b - a) <= N)%nat -> (N <= fuel)%nat ->
  (a0 <= a)%Z -> (b <= b0)%Z -> (2 <= b - a)%Z ->
  (a = a0 \/ (Rabs (f a) <= Rabs (f (a + 1)%Z))%R) ->
  (b = b0 \/ (Rabs (f b) < Rabs (f (b - 1)%Z))%R) ->
  exists r, bisect_extremum f fuel a b fa fb = Some r /\ inner_max f a0 b0 r.
Proof.
  induction N as [|N IH]; intros a b fa fb fuel HN Hf Ha Hb Hd Hla Hrb; [lia|].
  destruct fuel as [|fuel]; [lia|]. cbn [bisect_extremum].
  destruct (Z.leb_spec (b - a) 1); [lia|].
  destruct (Z.eqb_spec (b - a) 2) as [E|E].
  - exists (a + 1)%Z. split; auto.
    assert (b = a + 1 + 1)%Z by lia. subst b.
    split; [lia|]. split.
    + intros Hlt. destruct Hrb as [Hb0|Hrb]; [lia|].
      replace (a + 1 + 1 - 1)%Z with (a + 1)%Z in Hrb by lia. auto.
    + intros Hlt. replace (a + 1 - 1)%Z with a in * by lia.
      destruct Hla; [lia|auto].
  - assert (Hm : (a + 1 <= (a + b) / 2 /\ (a + b) / 2 + 2 <= b)%Z).
    { split; [apply Z.div_le_lower_bound; lia|].
      assert ((a + b) / 2 < b - 1)%Z; [apply Z.div_lt_upper_bound; lia|lia]. }
    destruct (Rltb _ _) eqn:El.
    + apply Rltb_true in El. apply IH; try lia; auto.
      right. replace ((a + b) / 2 + 1 - 1)%Z with ((a + b) / 2)%Z by lia. auto.
    + apply Rltb_false in El. apply IH; try lia; auto.
Qed.

Lemma bisect_extremum_ok a b fa fb :
  (a + 2 <= b)%Z ->
  exists r, ends_with (fun fuel => bisect_extremum f fuel a b fa fb) r /\ inner_max f a b r.
Proof.
  intros H.
  destruct (bisect_extremum_inv a b (Z.to_nat (b - a)) a b fa fb (Z.to_nat (b - a))) as (r & Hr & Hm);
    auto; try lia.
  exists r; split; auto. exists (Z.to_nat (b - a)). intros fuel Hf.
  eapply bisect_extremum_mono'; eauto.
Qed.

(** On a unimodal stretch the reported point is the peak. *)
Lemma inner_max_unimodal a b r p :
  (a < p < b)%Z ->
  (forall x, (a < x < p)%Z -> (Rabs (f x) <= Rabs (f (x + 1)%Z))%R) ->
  (forall x, (p <= x)%Z -> (x + 1 < b)%Z -> (Rabs (f (x + 1)%Z) < Rabs (f x))%R) ->
  inner_max f a b r -> r = p.
Proof.
  intros Hp Hup Hdn (Hr & H1 & H2).
  destruct (Z.lt_trichotomy r p) as [Hlt|[|Hgt]]; auto; exfalso.
  - specialize (Hup r ltac:(lia)). specialize (H1 ltac:(lia)). lra.
  - specialize (Hdn (r - 1)%Z ltac:(lia) ltac:(lia)). replace (r - 1 + 1)%Z with r in Hdn by lia.
    specialize (H2 ltac:(lia)). lra.
Qed.

(** * The grid level *)
Fixpoint triples {X} (l : list X) : list (X * X * X) :=
  match l with
  | a :: ((c :: b :: _) as l') => (a, c, b) :: triples l'
  | _ => []
  end.

Lemma triples_adjacent {X} (l : list X) a c b : In (a, c, b) (triples l) <-> adjacent3 l a c b.
Proof.
  split.
  - induction l as [|x l IH]; simpl; [tauto|].
    destruct l as [|y [|z l]]; simpl; try tauto.
    intros [[= <- <- <-]|H].
    + exists [], l; auto.
    + destruct (IH H) as (l1 & l2 & E). exists (x :: l1), l2. simpl; congruence.
  - intros (l1 & l2 & ->). induction l1 as [|x l1 IH]; [left; auto|].
    destruct l1 as [|y [|z l1]]; simpl in *; auto.
Qed.

Definition turnb (p : Z * Z * Z) : bool :=
  let '(a, c, b) := p in
  negb (Bool.eqb (rsignbit (f c - f a)) (rsignbit (f b - f c))).

Lemma turnb_spec a c b : turnb (a, c, b) = true <-> turns f a c b.
Proof.
  unfold turnb, turns, rsignbit.
  destruct (Rltb (f c - f a) 0) eqn:E1, (Rltb (f b - f c) 0) eqn:E2; simpl;
    rewrite ?Rltb_true, ?Rltb_false in *; split; try easy; lra.
Qed.

Definition mk3 (p : Z * Z * Z) : bracket Z R :=
  let '(a, _, b) := p in mkbr a b (Rabs (f a)) (Rabs (f b)).

Lemma where_eq grid :
  let fx := map f grid in
  let sgx := map rsignbit (map2 (fun p q => (q - p)%R) (init fx) (tl fx)) in
  map2 (fun p q => negb (Bool.eqb p q)) (init sgx) (tl sgx) = map turnb (triples grid).
Proof.
  cbn zeta. induction grid as [|a [|c [|b l]] IH]; auto.
  change (triples (a :: c :: b :: l)) with ((a, c, b) :: triples (c :: b :: l)).
  refine (eq_trans _ (f_equal (cons (turnb (a, c, b))) IH)). reflexivity.
Qed.

Lemma brs_eq (q : Z * Z * Z -> bool) grid :
  let w := map q (triples grid) in
  zip_brackets (mask (w ++ [false; false]) grid) (mask (false :: false :: w) grid)
               (mask (w ++ [false; false]) (map Rabs (map f grid)))
               (mask (false :: false :: w) (map Rabs (map f grid)))
  = map mk3 (filter q (triples grid)).
Proof.
  cbn zeta. induction grid as [|a [|c [|b l]] IH]; auto.
  change (triples (a :: c :: b :: l)) with ((a, c, b) :: triples (c :: b :: l)).
  cbn [map app mask filter]. cbn [map mask] in IH.
  destruct (q (a, c, b)) eqn:E.
  - unfold zip_brackets in *. cbn [combine map2 map]. cbn [fst snd mk3]. f_equal. exact IH.
  - exact IH.
Qed.

(** Unfolded form of the model for grids with at least two points. *)
Definition edge (x y : Z) : list Z :=
  if Rltb (Rabs (f y)) (Rabs (f x)) || negb (Bool.eqb (rsignbit (f x)) (rsignbit (f y)))
  then [x] else [].

Lemma discrete_extrema_unfold fuel x0 x1 l xl xl' l' :
  rev (x0 :: x1 :: l) = xl :: xl' :: l' ->
  discrete_extrema fuel f (x0 :: x1 :: l) =
  match traverse (map (fun c => bisect_extremum f fuel (ba c) (bb c) (bfa c) (bfb c))
                      (map mk3 (filter turnb (triples (x0 :: x1 :: l))))) with
  | None => None
  | Some inner => Some (Ok (edge x0 x1 ++ inner ++ edge xl xl'))
  end.
Proof.
  intros Hrev. unfold discrete_extrema.
  pose proof (where_eq (x0 :: x1 :: l)) as Hw. cbn zeta in Hw. rewrite Hw. clear Hw.
  pose proof (brs_eq turnb (x0 :: x1 :: l)) as Hb. cbn zeta in Hb. rewrite Hb. clear Hb.
  destruct (traverse _) as [inner|]; auto.
  cbn [map].
  replace (Rabs (f x0) :: Rabs (f x1) :: map Rabs (map f l)) with (map (fun z => Rabs (f z)) (x0 :: x1 :: l))
    by (cbn [map]; rewrite map_map; auto).
  replace (f x0 :: f x1 :: map f l) with (map f (x0 :: x1 :: l)) by auto.
  rewrite <- !map_rev, Hrev. cbn [map].
  unfold edge.
  reflexivity.
Qed.

Lemma traverse_some {A} (l : list (option A)) (r : list A) :
  Forall2 (fun o a => o = Some a) l r -> traverse l = Some r.
Proof. induction 1; simpl; auto. subst x. rewrite IHForall2. auto. Qed.

Definition rel3 (p : Z * Z * Z) (r : Z) : Prop := let '(a, _, b) := p in inner_max f a b r.

Lemma triples_gap grid a c b :
  StronglySorted Z.lt grid -> In (a, c, b) (triples grid) -> (a < c < b)%Z.
Proof.
  intros Hs Hin. apply triples_adjacent in Hin as (l1 & l2 & ->).
  apply StronglySorted_app_inv in Hs as (_ & Hs & _).
  apply StronglySorted_inv in Hs as [Hs F1]. apply StronglySorted_inv in Hs as [_ F2].
  inversion F1; inversion F2; subst. lia.
Qed.

Lemma inner_ends grid :
  StronglySorted Z.lt grid ->
  exists inner,
    ends_with (fun fuel => traverse (map (fun c => bisect_extremum f fuel (ba c) (bb c) (bfa c) (bfb c))
                      (map mk3 (filter turnb (triples grid))))) inner /\
    Forall2 rel3 (filter turnb (triples grid)) inner.
Proof.
  intros Hs.
  assert (Hgap : Forall (fun p => let '(a, _, b) := p in (a + 2 <= b)%Z) (filter turnb (triples grid))).
  { apply Forall_forall. intros [[a c] b] Hin. apply filter_In in Hin as [Hin _].
    pose proof (triples_gap grid a c b Hs Hin). lia. }
  induction Hgap as [|[[a c] b] ps Hab Hps IH].
  - exists []. split; auto. exists 0. auto.
  - destruct IH as (inner & (n & Hn) & F).
    destruct (bisect_extremum_ok a b (Rabs (f a)) (Rabs (f b)) Hab) as (r & (m & Hm) & Hr).
    exists (r :: inner). split; [|constructor; auto].
    exists (max n m). intros fuel Hf. cbn [map traverse mk3 ba bb bfa bfb].
    rewrite Hm by lia. rewrite Hn by lia. auto.
Qed.

Lemma edge_in x y r : In r (edge x y) <-> r = x /\ outer_max f x y.
Proof.
  unfold edge, outer_max, rsignbit.
  destruct (Rltb (Rabs (f y)) (Rabs (f x))) eqn:E1, (Rltb (f x) 0) eqn:E2, (Rltb (f y) 0) eqn:E3; simpl;
    rewrite ?Rltb_true, ?Rltb_false in *; split; intros H; try (destruct H as [<-|[]]); try tauto;
    try (split; auto; lra); try (destruct H as [-> H]; auto); try lra.
Qed.

Lemma discrete_extrema_ok grid x0 x1 xl xl' l1 l2 :
  StronglySorted Z.lt grid ->
  grid = x0 :: x1 :: l1 -> grid = l2 ++ [xl'; xl] ->
  exists rs,
    ends_with (fun fuel => discrete_extrema fuel f grid) (Ok rs) /\
    (In x0 rs <-> outer_max f x0 x1) /\
    (In xl rs <-> outer_max f xl xl') /\
    (forall a c b, adjacent3 grid a c b -> turns f a c b -> exists r, In r rs /\ inner_max f a b r) /\
    (forall r, In r rs -> r = x0 \/ r = xl \/
       (exists a c b, adjacent3 grid a c b /\ turns f a c b /\ inner_max f a b r)) /\
    ((forall a c d b, adjacent3 grid a c d -> adjacent3 grid c d b ->
        turns f a c d -> turns f c d b -> False) -> StronglySorted Z.lt rs).
Proof.
  intros Hs E1 E2.
  destruct (inner_ends grid Hs) as (inner & (n & Hn) & F).
  assert (Hrev : rev grid = xl :: xl' :: rev l2) by (rewrite E2, rev_app_distr; auto).
  exists (edge x0 x1 ++ inner ++ edge xl xl').
  assert (Hx0min : forall y, In y grid -> y = x0 \/ (x0 < y)%Z).
  { intros y Hy. rewrite E1 in Hs, Hy. apply StronglySorted_inv in Hs as [_ Hf].
    destruct Hy as [|Hy]; auto. rewrite Forall_forall in Hf. auto. }
  assert (Hxlmax : forall y, In y grid -> y = xl \/ (y < xl)%Z).
  { intros y Hy. rewrite E2 in Hs, Hy.
    replace (l2 ++ [xl'; xl]) with ((l2 ++ [xl']) ++ [xl]) in * by (rewrite <- app_assoc; auto).
    apply StronglySorted_app_inv in Hs as (_ & _ & Hc).
    apply in_app_or in Hy as [Hy|[|[]]]; auto. right. apply Hc; auto. left; auto. }
  assert (Hlt0l : (x0 < xl)%Z).
  { assert (Hin : In xl grid) by (rewrite E2; apply in_or_app; right; right; left; auto).
    destruct (Hx0min xl Hin) as [->|]; auto. exfalso.
    assert (Hx1 : In x1 grid) by (rewrite E1; right; left; auto).
    assert (x0 < x1)%Z.
    { rewrite E1 in Hs. apply StronglySorted_inv in Hs as [_ Hf]. inversion Hf; auto. }
    destruct (Hxlmax x1 Hx1); lia. }
  assert (Hinner : forall r, In r inner -> exists a c b, adjacent3 grid a c b /\ turns f a c b /\ inner_max f a b r).
  { intros r Hr. destruct (Forall2_in_r _ _ _ _ F Hr) as ([[a c] b] & Hin & HR).
    apply filter_In in Hin as [H1 H2]. exists a, c, b.
    rewrite <- triples_adjacent, <- turnb_spec. auto. }
  assert (Hinb : forall r, In r inner -> (x0 < r < xl)%Z).
  { intros r Hr. destruct (Hinner r Hr) as (a & c & b & (m1 & m2 & Em) & _ & (Hab & _)).
    assert (Ha : In a grid) by (rewrite Em; apply in_or_app; right; left; auto).
    assert (Hb : In b grid) by (rewrite Em; apply in_or_app; right; right; right; left; auto).
    destruct (Hx0min a Ha), (Hxlmax b Hb); lia. }
  split; [|split; [|split; [|split; [|split]]]].
  - exists n. intros fuel Hf. rewrite E1 in Hrev |- *.
    rewrite (discrete_extrema_unfold fuel x0 x1 l1 xl xl' (rev l2) Hrev).
    rewrite <- E1. rewrite Hn by auto. auto.
  - rewrite !in_app_iff, !edge_in. split.
    + intros [[_ H]|[H|[H _]]]; auto; [|lia]. apply Hinb in H; lia.
    + auto.
  - rewrite !in_app_iff, !edge_in. split.
    + intros [[H _]|[H|[_ H]]]; auto; [lia|]. apply Hinb in H; lia.
    + auto.
  - intros a c b Ha Ht.
    destruct (Forall2_in_l _ _ _ (a, c, b) F) as (r & Hr & HR).
    { apply filter_In. rewrite triples_adjacent, turnb_spec. auto. }
    exists r; split; auto. rewrite !in_app_iff; auto.
  - intros r Hr. rewrite !in_app_iff, !edge_in in Hr.
    destruct Hr as [[-> _]|[H|[-> _]]]; auto.
  - intros Hno.
    assert (Hin_sorted : StronglySorted Z.lt inner).
    { clear - Hs F Hno.
      assert (G : forall g, StronglySorted Z.lt g ->
        (forall a c d b, adjacent3 g a c d -> adjacent3 g c d b -> turns f a c d -> turns f c d b -> False) ->
        forall inner, Forall2 rel3 (filter turnb (triples g)) inner -> StronglySorted Z.lt inner).
      { clear. induction g as [|a g IH]; intros Hs Hno inner F; [inversion F; constructor|].
        destruct g as [|c [|d g]]; try (inversion F; constructor; fail).
        change (triples (a :: c :: d :: g)) with ((a, c, d) :: triples (c :: d :: g)) in F.
        cbn [filter] in F.
        assert (Hs' := Hs). apply StronglySorted_inv in Hs' as [Hs' _].
        assert (Hno' : forall a' c' d' b', adjacent3 (c :: d :: g) a' c' d' -> adjacent3 (c :: d :: g) c' d' b' ->
            turns f a' c' d' -> turns f c' d' b' -> False).
        { intros a' c' d' b' (p1 & p2 & E1) (q1 & q2 & E2). apply Hno.
          - exists (a :: p1), p2. simpl; congruence.
          - exists (a :: q1), q2. simpl; congruence. }
        destruct (turnb (a, c, d)) eqn:Et; [|apply IH; auto].
        inversion F as [|? r ? inner' HR F']; subst. cbn [rel3] in HR.
        constructor; [apply IH; auto|].
        apply Forall_forall. intros z Hz.
        destruct (Forall2_in_r _ _ _ _ F' Hz) as ([[p q] s] & Hin & HR').
        apply filter_In in Hin as [Hin Ht']. cbn [rel3] in HR'.
        assert (Hdp : (d <= p)%Z).
        { destruct g as [|e g]; [destruct Hin|].
          change (triples (c :: d :: e :: g)) with ((c, d, e) :: triples (d :: e :: g)) in Hin.
          destruct Hin as [E|Hin].
          - injection E as <- <- <-. exfalso. apply (Hno a c d e).
            + exists [], (e :: g); auto.
            + exists [a], g; auto.
            + apply turnb_spec; auto.
            + apply turnb_spec; auto.
          - change (In (p, q, s) (triples (d :: e :: g))) in Hin.
            apply triples_adjacent in Hin as (m1 & m2 & Em).
            apply StronglySorted_inv in Hs' as [Hs' _].
            destruct m1 as [|y m1]; simpl in Em; injection Em as -> Em; [lia|].
            apply StronglySorted_inv in Hs' as [_ Hf]. rewrite Forall_forall in Hf.
            apply Z.lt_le_incl, Hf. rewrite Em. apply in_or_app; right; left; auto. }
        destruct HR as [Hr _], HR' as [Hz' _]. lia. }
      eapply G; eauto. }
    assert (Hed : forall x y, StronglySorted Z.lt (edge x y)).
    { intros x y. unfold edge. destruct (_ || _)%bool; repeat constructor. }
    apply StronglySorted_app; auto.
    + apply StronglySorted_app; auto. intros x y Hx Hy. apply edge_in in Hy as [-> _].
      apply Hinb in Hx; lia.
    + intros x y Hx Hy. apply edge_in in Hx as [-> _].
      apply in_app_or in Hy as [Hy|Hy]; [apply Hinb in Hy; lia|apply edge_in in Hy as [-> _]; auto].
Qed.
End Extr.

(** * Integer-valued functions, for evaluating examples *)
Lemma Rltb_IZR a b : Rltb (IZR a) (IZR b) = (a <? b)%Z.
Proof.
  destruct (Z.ltb_spec a b).
  - apply Rltb_true, IZR_lt; auto.
  - apply Rltb_false, IZR_le; auto.
Qed.
Lemma Rabs_IZR a : Rabs (IZR a) = IZR (Z.abs a).
Proof. symmetry; apply abs_IZR. Qed.


(** The same computation on integer values. *)
Fixpoint bisect_extremum_z (g : Z -> Z) (fuel : nat) (a b fa fb : Z) : option Z :=
  match fuel with
  | O => None
  | S fuel' =>
      if (b - a <=? 1)%Z then Some (if (fb <? fa)%Z then a else b) else
      if (b - a =? 2)%Z then Some (a + 1)%Z else
      let m := ((a + b) / 2)%Z in
      let n := (m + 1)%Z in
      if (Z.abs (g n) <? Z.abs (g m))%Z
      then bisect_extremum_z g fuel' a n fa (Z.abs (g n))
      else bisect_extremum_z g fuel' m b (Z.abs (g m)) fb
  end.
Definition turn_z (g : Z -> Z) (p : Z * Z * Z) : bool :=
  let '(a, c, b) := p in negb (Bool.eqb (g c - g a <? 0)%Z (g b - g c <? 0)%Z).
Definition edge_z (g : Z -> Z) (x y : Z) : list Z :=
  if (Z.abs (g y) <? Z.abs (g x))%Z || negb (Bool.eqb (g x <? 0)%Z (g y <? 0)%Z) then [x] else [].
Definition extrema_z (fuel : nat) (g : Z -> Z) (grid : list Z) : option (res (list Z)) :=
  match grid, rev grid with
  | x0 :: x1 :: _, xl :: xl' :: _ =>
      match traverse (map (fun p => let '(a, _, b) := p in
                             bisect_extremum_z g fuel a b (Z.abs (g a)) (Z.abs (g b)))
                          (filter (turn_z g) (triples grid))) with
      | None => None
      | Some inner => Some (Ok (edge_z g x0 x1 ++ inner ++ edge_z g xl xl'))
      end
  | _, _ => Some (Raise IndexError)
  end.

Lemma bisect_extremum_zr g fuel : forall a b fa fb,
  bisect_extremum (fun x => IZR (g x)) fuel a b (IZR fa) (IZR fb) = bisect_extremum_z g fuel a b fa fb.
Proof.
  induction fuel as [|fuel IH]; intros a b fa fb; auto.
  cbn [bisect_extremum bisect_extremum_z]. cbn zeta. rewrite !Rabs_IZR, !Rltb_IZR, !IH. reflexivity.
Qed.

Lemma extrema_zr fuel g x0 x1 l :
  discrete_extrema fuel (fun x => IZR (g x)) (x0 :: x1 :: l) = extrema_z fuel g (x0 :: x1 :: l).
Proof.
  destruct (rev (x0 :: x1 :: l)) as [|xl [|xl' l']] eqn:Hr.
  - apply (f_equal (@length _)) in Hr. rewrite rev_length in Hr. discriminate.
  - apply (f_equal (@length _)) in Hr. rewrite rev_length in Hr. discriminate.
  - rewrite (discrete_extrema_unfold _ _ _ _ _ _ _ _ Hr). unfold extrema_z. rewrite Hr.
    assert (He : forall x y, edge (fun x => IZR (g x)) x y = edge_z g x y).
    { intros x y. unfold edge, edge_z, rsignbit. rewrite !Rabs_IZR, !Rltb_IZR. auto. }
    rewrite !He.
    rewrite map_map.
    rewrite (filter_ext _ (turn_z g)).
    + erewrite map_ext; [reflexivity|]. intros [[a c] b]. cbn [mk3 ba bb bfa bfb].
      rewrite !Rabs_IZR. apply bisect_extremum_zr.
    + intros [[a c] b]. unfold turnb, turn_z, rsignbit. rewrite <- !minus_IZR, !Rltb_IZR. auto.
Qed.

(** An oscillating function sampled too coarsely. *)
Definition osc (x : Z) : Z :=
  if (x =? 3)%Z || (x =? 6)%Z || (x =? 8)%Z || (x =? 14)%Z then 1%Z else 0%Z.

Lemma extrema_unordered :
  ends_with (fun fuel => discrete_extrema fuel (fun x => IZR (osc x)) [0; 3; 10; 14]%Z) (Ok [8; 6; 14]%Z).
Proof.
  exists 6. intros fuel H. rewrite extrema_zr.
  do 6 (destruct fuel as [|fuel]; [lia|]). reflexivity.
Qed.

Lemma extrema_unordered_ex :
  exists f, ends_with (fun fuel => discrete_extrema fuel f [0; 3; 10; 14]%Z) (Ok [8; 6; 14]%Z).
Proof. eexists. exact extrema_unordered. Qed.
