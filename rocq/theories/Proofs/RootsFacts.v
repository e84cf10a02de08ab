From Coq Require Import List ZArith Bool Reals Lia Lra Permutation Sorted Arith.
From Verif.Model Require Import Base Roots.
From Verif.Spec Require Import SRoots.
From Verif.Proofs Require Import BaseFacts.
Import ListNotations.

(** * Generic facts *)
Definition pairs {X} (l : list X) : list (X * X) := combine l (tl l).

Lemma pairs_cons {X} (x y : X) l : pairs (x :: y :: l) = (x, y) :: pairs (y :: l).
Proof. reflexivity. Qed.

Lemma pairs_adjacent {X} (l : list X) a b : In (a, b) (pairs l) <-> adjacent l a b.
Proof.
  split.
  - induction l as [|x [|y l] IH]; simpl; try tauto.
    intros [[= <- <-]|H].
    + exists [], l; auto.
    + destruct (IH H) as (l1 & l2 & E). exists (x :: l1), l2. simpl; congruence.
  - intros (l1 & l2 & ->). induction l1 as [|x [|y l1] IH]; simpl in *; auto.
Qed.

Lemma adjacent_in {X} (l : list X) a b : adjacent l a b -> In a l /\ In b l.
Proof.
  intros (l1 & l2 & ->); split; apply in_or_app; right; [left|right; left]; auto.
Qed.

Lemma merge_partition {A B} (R : A -> B -> Prop) p k l1 l2 :
  Forall2 R (filter p k) l1 -> Forall2 R (filter (fun c => negb (p c)) k) l2 ->
  exists m, Permutation (l1 ++ l2) m /\ Forall2 R k m.
Proof.
  revert l1 l2; induction k as [|c k IH]; intros l1 l2 H1 H2; simpl in *.
  - inversion H1; inversion H2; subst. exists []; auto.
  - destruct (p c); simpl in *.
    + inversion H1; subst. destruct (IH _ _ H5 H2) as (m & P & F).
      exists (y :: m); split; auto. simpl; constructor; auto.
    + inversion H2; subst. destruct (IH _ _ H1 H5) as (m & P & F).
      exists (y :: m); split; auto.
      rewrite <- Permutation_middle. constructor; auto.
Qed.

Lemma forallb_filter_nil {A} (p : A -> bool) l :
  forallb p l = false -> filter (fun c => negb (p c)) l <> [].
Proof.
  induction l as [|x l IH]; simpl; [discriminate|].
  destruct (p x); simpl; auto. discriminate.
Qed.

Lemma forallb_filter_all {A} (p : A -> bool) l : forallb p l = true -> filter p l = l.
Proof.
  induction l as [|x l IH]; simpl; auto.
  destruct (p x); simpl; try discriminate. intros; f_equal; auto.
Qed.

(** * Grid analysis in find_all *)
Section Grid.
Context {X V : Type} (signbit iszero : V -> bool) (f : X -> V).

Definition sc_pair (p : X * X) : bool :=
  negb (Bool.eqb (signbit (f (fst p))) (signbit (f (snd p)))) &&
  (negb (iszero (f (fst p))) && negb (iszero (f (snd p)))).

Lemma sc_pair_spec a b : sc_pair (a, b) = true <-> sign_interval signbit iszero f a b.
Proof.
  unfold sc_pair, sign_interval; simpl.
  destruct (iszero (f a)), (iszero (f b)), (signbit (f a)), (signbit (f b)); simpl;
    split; try easy; intros; repeat split; congruence.
Qed.

Lemma sign_change_eq grid :
  map2 andb
    (map2 (fun p q => negb (Bool.eqb (signbit p) (signbit q))) (init (map f grid)) (tl (map f grid)))
    (map2 (fun p q => negb p && negb q) (init (map iszero (map f grid))) (tl (map iszero (map f grid))))
  = map sc_pair (pairs grid).
Proof.
  induction grid as [|x [|y l] IH]; auto.
  rewrite pairs_cons. cbn [map]. rewrite <- IH.
  unfold init. cbn [map removelast tl map2]. f_equal.
Qed.

Definition mk (p : X * X) : bracket X V := mkbr (fst p) (snd p) (f (fst p)) (f (snd p)).

Lemma brackets_eq (q : X * X -> bool) grid :
  let sc := map q (pairs grid) in
  zip_brackets (mask (sc ++ [false]) grid) (mask (false :: sc) grid)
               (mask (sc ++ [false]) (map f grid)) (mask (false :: sc) (map f grid))
  = map mk (filter q (pairs grid)).
Proof.
  induction grid as [|x [|y l] IH]; auto.
  rewrite pairs_cons. cbn [map app mask filter].
  destruct (q (x, y)) eqn:E.
  - cbn [map app mask]. cbn [map] in IH. unfold zip_brackets in *. simpl combine. simpl map2.
    f_equal. apply IH.
  - cbn [map app mask]. apply IH.
Qed.

Lemma find_all_unfold leb bisect grid :
  find_all signbit iszero leb bisect f grid =
  let hits := filter (fun x => iszero (f x)) grid in
  let brs := map mk (filter sc_pair (pairs grid)) in
  match brs with
  | [] => Some hits
  | _ :: _ => match bisect brs with
              | None => None
              | Some xb => Some (sort_by leb (hits ++ xb))
              end
  end.
Proof.
  unfold find_all. rewrite sign_change_eq.
  rewrite (map_map f iszero), mask_map_filter.
  pose proof (brackets_eq sc_pair grid) as E. cbn zeta in E. rewrite E.
  cbn zeta.
  destruct (filter sc_pair (pairs grid)) as [|p ps] eqn:Ef.
  - replace (existsb (fun b => b) (map sc_pair (pairs grid))) with false; auto.
    symmetry. apply not_true_is_false. intros H. apply existsb_exists in H as (b & Hb & ->).
    apply in_map_iff in Hb as (p & Hp & Hin).
    assert (In p []) by (rewrite <- Ef; apply filter_In; auto). easy.
  - replace (existsb (fun b => b) (map sc_pair (pairs grid))) with true; auto.
    symmetry. apply existsb_exists. exists true; split; auto.
    assert (Hin : In p (p :: ps)) by (left; auto). rewrite <- Ef in Hin.
    apply filter_In in Hin as [H1 H2]. apply in_map_iff. eauto.
Qed.
End Grid.

(** * Order-generic correctness of find_all *)
Section Order.
Context {X V : Type} (lt : X -> X -> Prop) (leb : X -> X -> bool).
Hypothesis lt_irrefl : forall x, ~ lt x x.
Hypothesis lt_trans : forall x y z, lt x y -> lt y z -> lt x z.
Hypothesis leb_lt : forall x y, leb x y = true <-> (x = y \/ lt x y).
Hypothesis lt_total : forall x y, lt x y \/ x = y \/ lt y x.
Context (signbit iszero : V -> bool) (f : X -> V).
Variable rel : bracket X V -> X -> Prop.
Hypothesis rel_range : forall c r, rel c r -> (ba c = r \/ lt (ba c) r) /\ lt r (bb c).

Lemma le_lt_trans x y z : (x = y \/ lt x y) -> lt y z -> lt x z.
Proof. intros [->|H] H'; eauto. Qed.

Lemma grid_gap l a b h :
  StronglySorted lt l -> adjacent l a b -> In h l -> (h = a \/ lt h a) \/ (h = b \/ lt b h).
Proof.
  intros Hs (l1 & l2 & ->) Hh.
  apply StronglySorted_app_inv in Hs as (H1 & H2 & H3).
  apply in_app_or in Hh as [Hh|[<-|[<-|Hh]]]; auto.
  - left; right. apply H3; auto. left; auto.
  - apply StronglySorted_inv in H2 as [H2 _]. apply StronglySorted_inv in H2 as [_ H2].
    rewrite Forall_forall in H2. right; right. auto.
Qed.

Lemma adjacent_lt l a b : StronglySorted lt l -> adjacent l a b -> lt a b.
Proof.
  intros Hs (l1 & l2 & ->).
  apply StronglySorted_app_inv in Hs as (_ & H2 & _).
  apply StronglySorted_inv in H2 as [_ H2]. inversion H2; auto.
Qed.

Lemma pairs_disjoint grid :
  StronglySorted lt grid ->
  StronglySorted (fun p q => snd p = fst q \/ lt (snd p) (fst q)) (pairs grid).
Proof.
  induction grid as [|x [|y l] IH]; intros Hs; try (constructor; fail).
  rewrite pairs_cons. constructor.
  - apply StronglySorted_inv in Hs as [Hs _]. apply (IH Hs).
  - apply StronglySorted_inv in Hs as [Hs _].
    apply Forall_forall. intros [a b] Hin. cbn [fst snd].
    apply pairs_adjacent in Hin. apply adjacent_in in Hin as [Ha _].
    destruct Ha as [<-|Ha]; auto. right.
    apply StronglySorted_inv in Hs as [_ Hf]. rewrite Forall_forall in Hf; auto.
Qed.

Lemma results_sorted ps rs :
  StronglySorted (fun p q => snd p = fst q \/ lt (snd p) (fst q)) ps ->
  Forall2 rel (map (mk f) ps) rs -> StronglySorted lt rs.
Proof.
  intros Hs. revert rs. induction Hs as [|p ps Hs IH Hf]; intros rs H; inversion H; subst.
  - constructor.
  - constructor; auto.
    apply Forall_forall. intros z Hz.
    destruct (rel_range _ _ H2) as [_ Hlt]. simpl in Hlt.
    assert (Hex : exists q, In q ps /\ rel (mk f q) z).
    { clear - H4 Hz. revert l' H4 Hz. induction ps as [|q ps IHp]; intros l' H4 Hz;
        inversion H4; subst; [destruct Hz|].
      destruct Hz as [<-|Hz]; [exists q; split; auto; left; auto|].
      destruct (IHp _ H3 Hz) as (q' & ? & ?). exists q'; split; auto; right; auto. }
    destruct Hex as (q & Hq & Hr). destruct (rel_range _ _ Hr) as [Hle _]. simpl in Hle.
    rewrite Forall_forall in Hf. specialize (Hf q Hq).
    destruct Hf as [E|Hf]; destruct Hle as [E'|Hle]; try rewrite E' in *; try rewrite E in *;
      subst; eauto.
Qed.

Lemma Forall2_in_l {A B} (R : A -> B -> Prop) k l c :
  Forall2 R k l -> In c k -> exists r, In r l /\ R c r.
Proof.
  induction 1; intros [].
  - subst; eexists; split; [left|]; eauto.
  - destruct IHForall2 as (r & ? & ?); auto. exists r; split; auto; right; auto.
Qed.
Lemma Forall2_in_r {A B} (R : A -> B -> Prop) k l r :
  Forall2 R k l -> In r l -> exists c, In c k /\ R c r.
Proof.
  induction 1; intros [].
  - subst; eexists; split; [left|]; eauto.
  - destruct IHForall2 as (c & ? & ?); auto. exists c; split; auto; right; auto.
Qed.

Lemma find_all_correct grid brs hits xb xb' rs :
  StronglySorted lt grid ->
  brs = map (mk f) (filter (sc_pair signbit iszero f) (pairs grid)) ->
  hits = filter (fun x => iszero (f x)) grid ->
  Permutation xb xb' -> Forall2 rel brs xb' ->
  rs = sort_by leb (hits ++ xb) ->
  StronglySorted lt rs /\
  length rs = length hits + length brs /\
  (forall x, In x grid -> iszero (f x) = true -> In x rs) /\
  (forall a b, adjacent grid a b -> sign_interval signbit iszero f a b ->
     exists r, (In r rs /\ rel (mk f (a, b)) r) /\
       (forall r', In r' rs -> (r' = a \/ lt a r') -> lt r' b -> r' = r)) /\
  (forall r, In r rs ->
     (In r grid /\ iszero (f r) = true) \/
     (exists a b, adjacent grid a b /\ sign_interval signbit iszero f a b /\ rel (mk f (a, b)) r)).
Proof.
  intros Hg Hbrs Hhits P F Hrs.
  assert (Psort : Permutation (hits ++ xb) rs) by (subst rs; apply sort_by_perm).
  assert (Hsrt : StronglySorted (fun a b => leb a b = true) rs).
  { subst rs. apply sort_by_sorted.
    - intros x y. rewrite !leb_lt. destruct (lt_total x y) as [|[|]]; auto.
    - intros x y z. rewrite !leb_lt. intros [->|H1] [->|H2]; auto. right; eauto. }
  assert (Hin_rs : forall r, In r rs <-> In r hits \/ In r xb').
  { intros r. rewrite <- (Permutation_in' eq_refl Psort). rewrite in_app_iff.
    rewrite (Permutation_in' eq_refl P). reflexivity. }
  assert (Hbr : forall c, In c brs <-> exists a b, c = mk f (a, b) /\ adjacent grid a b /\
                                  sign_interval signbit iszero f a b).
  { intros c. subst brs. rewrite in_map_iff. split.
    - intros ([a b] & <- & Hin). apply filter_In in Hin as [H1 H2].
      exists a, b. rewrite <- pairs_adjacent, <- sc_pair_spec. auto.
    - intros (a & b & -> & H1 & H2). exists (a, b); split; auto.
      apply filter_In. rewrite pairs_adjacent, sc_pair_spec. auto. }
  assert (Hbis : forall r, In r xb' -> exists a b, adjacent grid a b /\
             sign_interval signbit iszero f a b /\ rel (mk f (a, b)) r).
  { intros r Hr. destruct (Forall2_in_r _ _ _ _ F Hr) as (c & Hc & HR).
    apply Hbr in Hc as (a & b & -> & H1 & H2). eauto. }
  assert (Hxs : StronglySorted lt xb').
  { apply results_sorted with (ps := filter (sc_pair signbit iszero f) (pairs grid)).
    - apply StronglySorted_filter, pairs_disjoint; auto.
    - subst brs; auto. }
  assert (Hnd_of : forall l, StronglySorted lt l -> NoDup l).
  { induction 1 as [|x l Hs IH Hf]; constructor; auto.
    intros Hi. rewrite Forall_forall in Hf. apply (lt_irrefl x); auto. }
  (* a grid point inside [a,b) is a *)
  assert (Hgap : forall a b h, adjacent grid a b -> In h grid -> (h = a \/ lt a h) -> lt h b -> h = a).
  { intros a b h Ha Hh H1 H2.
    destruct (grid_gap grid a b h Hg Ha Hh) as [[?|?]|[?|?]]; auto.
    - destruct H1 as [|H1]; auto. exfalso; apply (lt_irrefl h); eauto.
    - subst h. exfalso; eapply lt_irrefl; eauto.
    - exfalso; apply (lt_irrefl h); eauto. }
  assert (Hdisj : forall r, In r hits -> In r xb' -> False).
  { intros r Hh Hx. subst hits. apply filter_In in Hh as [Hr Hz].
    destruct (Hbis r Hx) as (a & b & Ha & (Hna & _) & HR).
    destruct (rel_range _ _ HR) as [H1 H2]; simpl in *.
    assert (r = a) by (eapply Hgap; eauto; destruct H1; auto). subst r. congruence. }
  assert (Hnd : NoDup rs).
  { eapply Permutation_NoDup; [exact Psort|].
    eapply Permutation_NoDup; [apply Permutation_app_head; symmetry; exact P|].
    assert (NoDup hits) by (subst hits; apply NoDup_filter, Hnd_of; auto).
    assert (NoDup xb') by auto.
    clear - H H0 Hdisj. induction H; simpl; auto. constructor.
    - rewrite in_app_iff. intros [|]; auto. apply (Hdisj x); auto. left; auto.
    - apply IHNoDup. intros r ? ?; apply (Hdisj r); auto. right; auto. }
  split; [|split; [|split; [|split]]].
  - clear - Hsrt Hnd leb_lt. induction Hsrt as [|x l Hs IH Hf]; constructor.
    + apply IH; inversion Hnd; auto.
    + inversion Hnd; subst. rewrite Forall_forall in *. intros y Hy.
      destruct (proj1 (leb_lt x y) (Hf y Hy)); auto. subst; contradiction.
  - rewrite <- (Permutation_length Psort), app_length, (Permutation_length P).
    f_equal. symmetry. clear - F. induction F; simpl; auto.
  - intros x Hx Hz. apply Hin_rs; left. subst hits; apply filter_In; auto.
  - intros a b Ha Hsi.
    destruct (Forall2_in_l rel brs xb' (mk f (a, b)) F) as (r & Hr & HR).
    { apply Hbr. exists a, b. auto. }
    exists r; split; [split; auto; apply Hin_rs; auto|].
    intros r' Hr' H1 H2. apply Hin_rs in Hr' as [Hh|Hx].
    + exfalso. subst hits. apply filter_In in Hh as [Hh Hz].
      assert (r' = a) by (eapply Hgap; eauto). subst r'.
      destruct Hsi; congruence.
    + destruct (rel_range _ _ HR) as [H3 H4]; simpl in *.
      (* both r and r' come from brackets; the brackets coincide *)
      destruct (Hbis r' Hx) as (a' & b' & Ha' & Hsi' & HR').
      destruct (rel_range _ _ HR') as [H5 H6]; simpl in *.
      assert (a' = a /\ b' = b) as [-> ->].
      { (* the intervals [a,b) and [a',b') share r' *)
        pose proof (adjacent_in _ _ _ Ha) as [Iaa Ib].
        pose proof (adjacent_in _ _ _ Ha') as [Ia' Ib'].
        assert (Haa : a' = a).
        { destruct (grid_gap grid a b a' Hg Ha Ia') as [[?|Hc]|Hc]; auto.
          - (* a' < a: then b' <= a <= r' < b' *)
            destruct (grid_gap grid a' b' a Hg Ha' Iaa) as [[?|Hd]|Hd]; auto.
            + exfalso; apply (lt_irrefl a); eauto.
            + exfalso. apply (lt_irrefl b'). apply le_lt_trans with a; [destruct Hd; auto|].
              apply le_lt_trans with r'; auto. destruct H1; auto.
          - (* b <= a' <= r' < b *)
            exfalso. apply (lt_irrefl b). apply le_lt_trans with a'; [destruct Hc; auto|].
            apply le_lt_trans with r'; auto. }
        subst a'. split; auto.
        destruct (grid_gap grid a b b' Hg Ha Ib') as [Hc|[?|Hc]]; auto.
        - exfalso. pose proof (adjacent_lt _ _ _ Hg Ha').
          destruct Hc as [->|Hc]; [eapply lt_irrefl; eauto|apply (lt_irrefl a); eauto].
        - exfalso. pose proof (adjacent_lt _ _ _ Hg Ha) as Hab.
          destruct (grid_gap grid a b' b Hg Ha' Ib) as [Hd|Hd].
          + destruct Hd as [->|Hd]; [eapply lt_irrefl; eauto|apply (lt_irrefl a); eauto].
          + destruct Hd as [->|Hd]; [eapply lt_irrefl; eauto|apply (lt_irrefl b); eauto]. }
      (* one result per bracket *)
      clear - F Hr HR Hx HR' Hxs Hbr Ha Hsi rel_range lt_irrefl lt_trans Hg Hbrs lt_total.
      subst brs.
      assert (Hd : StronglySorted (fun p q => snd p = fst q \/ lt (snd p) (fst q))
                     (filter (sc_pair signbit iszero f) (pairs grid)))
        by (apply StronglySorted_filter, pairs_disjoint; auto).
      assert (Hone : forall ps l, StronglySorted (fun p q => snd p = fst q \/ lt (snd p) (fst q)) ps ->
        Forall2 rel (map (mk f) ps) l -> forall r r', In r l -> In r' l ->
        rel (mk f (a, b)) r -> rel (mk f (a, b)) r' -> In (a, b) ps -> r' = r).
      { clear - rel_range lt_irrefl lt_trans.
        induction ps as [|p ps IH]; intros l Hs F r r' Hr Hr' HR HR' Hin; [destruct Hin|].
        inversion F as [|? y ? l' Hy F' E1 E2]; subst.
        apply StronglySorted_inv in Hs as [Hs Hf]. rewrite Forall_forall in Hf.
        destruct (rel_range _ _ HR) as [B1 B2], (rel_range _ _ HR') as [B3 B4]; simpl in *.
        destruct Hin as [->|Hin].
        - (* the head bracket is (a,b): later results are >= b *)
          assert (Hlater : forall z, In z l' -> lt z b -> False).
          { intros z Hz Hzb. destruct (Forall2_in_r _ _ _ _ F' Hz) as (c & Hc & HRc).
            apply in_map_iff in Hc as (q & <- & Hq). destruct (rel_range _ _ HRc) as [L _].
            simpl in *. specialize (Hf q Hq).
            apply (lt_irrefl b). apply le_lt_trans with (fst q); auto.
            apply le_lt_trans with z; auto. }
          destruct Hr as [<-|Hr]; [|exfalso; eauto].
          destruct Hr' as [<-|Hr']; [auto|exfalso; eauto].
        - (* the head bracket is before (a,b): its result is < a *)
          specialize (Hf _ Hin). simpl in Hf.
          destruct (rel_range _ _ Hy) as [_ L]; simpl in L.
          assert (Hya : lt y a) by (destruct Hf as [<-|Hf]; eauto).
          destruct Hr as [<-|Hr].
          { exfalso. destruct B1 as [->|B1]; [eapply lt_irrefl; eauto|apply (lt_irrefl y); eauto]. }
          destruct Hr' as [<-|Hr'].
          { exfalso. destruct B3 as [->|B3]; [eapply lt_irrefl; eauto|apply (lt_irrefl y); eauto]. }
          eapply IH; eauto. }
      eapply Hone; eauto.
      apply filter_In. split; [apply pairs_adjacent; auto|apply sc_pair_spec; auto].
  - intros r Hr. apply Hin_rs in Hr as [Hh|Hx].
    + left. subst hits. apply filter_In in Hh; auto.
    + right; auto.
Qed.
End Order.
