(** Lemmas about the list primitives of [Model.Base]. *)
From Coq Require Import List ZArith Bool Reals Lia Lra Permutation Sorted RelationClasses.
From Verif.Model Require Import Base.
Import ListNotations.

Lemma Rleb_true x y : Rleb x y = true <-> (x <= y)%R.
Proof. unfold Rleb; destruct Rle_dec; split; intros; try easy; lra. Qed.
Lemma Rleb_false x y : Rleb x y = false <-> (y < x)%R.
Proof. unfold Rleb; destruct Rle_dec; split; intros; try easy; lra. Qed.
Lemma Rltb_true x y : Rltb x y = true <-> (x < y)%R.
Proof. unfold Rltb; destruct Rlt_dec; split; intros; try easy; lra. Qed.
Lemma Rltb_false x y : Rltb x y = false <-> (y <= x)%R.
Proof. unfold Rltb; destruct Rlt_dec; split; intros; try easy; lra. Qed.
Lemma Reqb_true x y : Reqb x y = true <-> x = y.
Proof. unfold Reqb; destruct Req_EM_T; split; intros; easy. Qed.
Lemma Reqb_false x y : Reqb x y = false <-> x <> y.
Proof. unfold Reqb; destruct Req_EM_T; split; intros; easy. Qed.

Section Sort.
Context {A : Type} (leb : A -> A -> bool).
Hypothesis leb_total : forall x y, leb x y = true \/ leb y x = true.
Hypothesis leb_trans : forall x y z, leb x y = true -> leb y z = true -> leb x z = true.

Lemma insert_by_perm x l : Permutation (x :: l) (insert_by leb x l).
Proof using.
  induction l as [|y l IH]; simpl; auto.
  destruct (leb x y); auto.
  rewrite perm_swap. constructor. exact IH.
Qed.

Lemma sort_by_perm l : Permutation l (sort_by leb l).
Proof using.
  induction l as [|x l IH]; simpl; auto.
  rewrite <- insert_by_perm. constructor; exact IH.
Qed.

Lemma insert_by_sorted x l :
  StronglySorted (fun a b => leb a b = true) l ->
  StronglySorted (fun a b => leb a b = true) (insert_by leb x l).
Proof.
  induction 1 as [|y l Hs IH Hf]; simpl.
  - constructor; constructor.
  - destruct (leb x y) eqn:E.
    + constructor; [constructor; auto|].
      constructor; auto.
      eapply Forall_impl; [|exact Hf]. intros; eauto.
    + constructor; auto.
      assert (Hyx : leb y x = true) by (destruct (leb_total x y); congruence).
      rewrite Forall_forall in *. intros z Hz.
      apply (Permutation_in _ (Permutation_sym (insert_by_perm x l))) in Hz.
      destruct Hz as [<-|Hz]; auto.
Qed.

Lemma sort_by_sorted l : StronglySorted (fun a b => leb a b = true) (sort_by leb l).
Proof. induction l; simpl; [constructor|apply insert_by_sorted; auto]. Qed.
End Sort.

Lemma StronglySorted_impl {A} (P Q : A -> A -> Prop) l :
  (forall x y, P x y -> Q x y) -> StronglySorted P l -> StronglySorted Q l.
Proof.
  intros H; induction 1; constructor; auto.
  eapply Forall_impl; [|eassumption]; auto.
Qed.

Lemma zsort_perm l : Permutation l (zsort l).
Proof. apply sort_by_perm. Qed.

Lemma zsort_sorted l : StronglySorted Z.le (zsort l).
Proof.
  eapply StronglySorted_impl; [|apply sort_by_sorted].
  - intros x y; apply Z.leb_le.
  - intros x y; rewrite !Z.leb_le; lia.
  - intros x y z; rewrite !Z.leb_le; lia.
Qed.

Lemma rsort_perm l : Permutation l (rsort l).
Proof. apply sort_by_perm. Qed.

Lemma rsort_sorted l : StronglySorted Rle (rsort l).
Proof.
  eapply StronglySorted_impl; [|apply sort_by_sorted].
  - intros x y; apply Rleb_true.
  - intros x y; rewrite !Rleb_true; lra.
  - intros x y z; rewrite !Rleb_true; lra.
Qed.

(** Sorting is determined by the multiset. *)
Lemma sorted_perm_eq {A} (le : A -> A -> Prop) (anti : forall x y, le x y -> le y x -> x = y) l m :
  StronglySorted le l -> StronglySorted le m -> Permutation l m -> l = m.
Proof.
  revert m; induction l as [|x l IH]; intros m Hl Hm P.
  - apply Permutation_nil in P; auto.
  - destruct m as [|y m]; [symmetry in P; apply Permutation_nil in P; discriminate|].
    apply StronglySorted_inv in Hl as [Hl Fl].
    apply StronglySorted_inv in Hm as [Hm Fm].
    rewrite Forall_forall in Fl, Fm.
    assert (x = y).
    { assert (Hx : In x (y :: m)) by (eapply Permutation_in; eauto; left; auto).
      assert (Hy : In y (x :: l)) by (eapply Permutation_in; [symmetry; eauto|]; left; auto).
      destruct Hx as [->|Hx]; auto. destruct Hy as [->|Hy]; auto. }
    subst y. f_equal. apply IH; auto. eapply Permutation_cons_inv; eauto.
Qed.

Lemma zsort_of_sorted l : StronglySorted Z.le l -> zsort l = l.
Proof.
  intros H; symmetry; apply (sorted_perm_eq Z.le); auto using zsort_sorted, zsort_perm.
  intros; lia.
Qed.

Lemma rsort_of_sorted l : StronglySorted Rle l -> rsort l = l.
Proof.
  intros H; symmetry; apply (sorted_perm_eq Rle); auto using rsort_sorted, rsort_perm.
  intros; lra.
Qed.

Lemma zsort_eq_iff l m : zsort l = zsort m <-> Permutation l m.
Proof.
  split; intros H.
  - rewrite (zsort_perm l), H; symmetry; apply zsort_perm.
  - apply (sorted_perm_eq Z.le); auto using zsort_sorted.
    + intros; lia.
    + rewrite <- !zsort_perm; auto.
Qed.

(** Strict sortedness from sortedness without repetition. *)
Lemma sorted_nodup_strict l :
  StronglySorted Z.le l -> NoDup l -> StronglySorted Z.lt l.
Proof.
  induction 1 as [|x l Hs IH Hf]; intros Hn; constructor.
  - apply IH; inversion Hn; auto.
  - inversion Hn; subst. rewrite Forall_forall in *. intros y Hy.
    specialize (Hf y Hy). assert (x <> y) by (intros ->; auto). lia.
Qed.

Lemma rsorted_nodup_strict l :
  StronglySorted Rle l -> NoDup l -> StronglySorted Rlt l.
Proof.
  induction 1 as [|x l Hs IH Hf]; intros Hn; constructor.
  - apply IH; inversion Hn; auto.
  - inversion Hn; subst. rewrite Forall_forall in *. intros y Hy.
    specialize (Hf y Hy). assert (x <> y) by (intros ->; auto). lra.
Qed.

Lemma strict_sorted_nodup l : StronglySorted Z.lt l -> NoDup l.
Proof.
  induction 1 as [|x l Hs IH Hf]; constructor; auto.
  intros Hin. rewrite Forall_forall in Hf. specialize (Hf x Hin). lia.
Qed.

Lemma rstrict_sorted_nodup l : StronglySorted Rlt l -> NoDup l.
Proof.
  induction 1 as [|x l Hs IH Hf]; constructor; auto.
  intros Hin. rewrite Forall_forall in Hf. specialize (Hf x Hin). lra.
Qed.

(** dedup *)
Lemma dedup_in {A} eqb (eqb_ok : forall x y : A, eqb x y = true <-> x = y) l x :
  In x (dedup_by eqb l) <-> In x l.
Proof.
  induction l as [|y l IH]; simpl; [tauto|].
  destruct (dedup_by eqb l) as [|z r] eqn:E.
  - rewrite <- IH. reflexivity.
  - destruct (eqb y z) eqn:E2.
    + apply eqb_ok in E2; subst z. rewrite <- IH. simpl; tauto.
    + rewrite <- IH. simpl; tauto.
Qed.

Lemma dedup_length {A} eqb (l : list A) : length (dedup_by eqb l) <= length l.
Proof.
  induction l as [|y l IH]; simpl; [lia|].
  destruct (dedup_by eqb l) as [|z r]; simpl in *; [lia|].
  destruct (eqb y z); simpl; lia.
Qed.

Lemma dedup_strict_gen {A} eqb (le lt : A -> A -> Prop)
  (eqb_ok : forall x y : A, eqb x y = true <-> x = y)
  (le_lt : forall x y, le x y -> x <> y -> lt x y)
  (le_lt_trans : forall x y z, le x y -> lt y z -> lt x z) l :
  StronglySorted le l -> StronglySorted lt (dedup_by eqb l).
Proof.
  induction 1 as [|x l Hs IH Hf]; simpl; [constructor|].
  assert (Hin := fun z => dedup_in eqb eqb_ok l z).
  destruct (dedup_by eqb l) as [|y r] eqn:E.
  - constructor; constructor.
  - rewrite Forall_forall in Hf.
    destruct (eqb x y) eqn:E2; auto.
    assert (Hxy : lt x y).
    { apply le_lt. apply Hf, Hin; left; auto.
      intros ->. rewrite (proj2 (eqb_ok y y) eq_refl) in E2; discriminate. }
    constructor; auto. constructor; auto.
    inversion IH; subst. rewrite Forall_forall in *. intros z Hz.
    apply le_lt_trans with y. apply Hf, Hin; left; auto. auto.
Qed.

Lemma zunique_in l x : In x (zunique l) <-> In x l.
Proof.
  unfold zunique. rewrite dedup_in by (intros; apply Z.eqb_eq).
  split; apply Permutation_in; [symmetry|]; apply zsort_perm.
Qed.
Lemma zunique_sorted l : StronglySorted Z.lt (zunique l).
Proof.
  apply dedup_strict_gen with (le := Z.le); try (intros; lia).
  apply zsort_sorted.
Qed.
Lemma runique_in l x : In x (runique l) <-> In x l.
Proof.
  unfold runique. rewrite dedup_in by (intros; apply Reqb_true).
  split; apply Permutation_in; [symmetry|]; apply rsort_perm.
Qed.
Lemma runique_sorted l : StronglySorted Rlt (runique l).
Proof.
  apply dedup_strict_gen with (le := Rle); try (intros; lra).
  - intros; apply Reqb_true.
  - apply rsort_sorted.
Qed.

(** Strictly sorted lists are determined by their elements. *)
Lemma zlt_sorted_ext l m :
  StronglySorted Z.lt l -> StronglySorted Z.lt m -> (forall x, In x l <-> In x m) -> l = m.
Proof.
  intros Hl Hm H.
  apply (sorted_perm_eq Z.le).
  - intros; lia.
  - eapply StronglySorted_impl; [|exact Hl]; intros; lia.
  - eapply StronglySorted_impl; [|exact Hm]; intros; lia.
  - apply NoDup_Permutation; auto using strict_sorted_nodup.
Qed.

(** Sorted lists and append / map / rev *)
Lemma StronglySorted_app {A} (P : A -> A -> Prop) l m :
  StronglySorted P l -> StronglySorted P m ->
  (forall x y, In x l -> In y m -> P x y) -> StronglySorted P (l ++ m).
Proof.
  induction 1 as [|x l Hs IH Hf]; intros Hm H; simpl; auto.
  constructor.
  - apply IH; auto. intros; apply H; auto; right; auto.
  - apply Forall_app; split; auto. apply Forall_forall; intros; apply H; auto; left; auto.
Qed.

Lemma StronglySorted_app_inv {A} (P : A -> A -> Prop) l m :
  StronglySorted P (l ++ m) ->
  StronglySorted P l /\ StronglySorted P m /\ (forall x y, In x l -> In y m -> P x y).
Proof.
  induction l as [|x l IH]; simpl; intros H.
  - repeat split; auto; [constructor|easy].
  - apply StronglySorted_inv in H as [H Hf]. apply IH in H as (H1 & H2 & H3).
    apply Forall_app in Hf as [F1 F2].
    repeat split; auto. constructor; auto.
    rewrite Forall_forall in F2. intros a b [<-|Ha] Hb; auto.
Qed.

Lemma StronglySorted_map {A B} (P : A -> A -> Prop) (Q : B -> B -> Prop) (f : A -> B) l :
  (forall x y, P x y -> Q (f x) (f y)) -> StronglySorted P l -> StronglySorted Q (map f l).
Proof.
  intros H; induction 1 as [|x l Hs IH Hf]; simpl; constructor; auto.
  rewrite Forall_map. eapply Forall_impl; [|exact Hf]; auto.
Qed.

Lemma StronglySorted_map_in {A B} (P : A -> A -> Prop) (Q : B -> B -> Prop) (f : A -> B) l :
  (forall x y, In x l -> In y l -> P x y -> Q (f x) (f y)) ->
  StronglySorted P l -> StronglySorted Q (map f l).
Proof.
  intros H Hs; induction Hs as [|x l Hs IH Hf]; simpl; constructor.
  - apply IH; intros; apply H; auto; right; auto.
  - rewrite Forall_map. rewrite Forall_forall in *. intros y Hy. apply H; auto; [left|right]; auto.
Qed.

Lemma StronglySorted_rev {A} (P Q : A -> A -> Prop) l :
  (forall x y, P x y -> Q y x) -> StronglySorted P l -> StronglySorted Q (rev l).
Proof.
  intros H; induction 1 as [|x l Hs IH Hf]; simpl; [constructor|].
  apply StronglySorted_app; auto.
  - constructor; constructor.
  - intros a b Ha [<-|[]]. rewrite Forall_forall in Hf. apply H, Hf, in_rev; auto.
Qed.

Lemma StronglySorted_filter {A} (P : A -> A -> Prop) f l :
  StronglySorted P l -> StronglySorted P (filter f l).
Proof.
  induction 1 as [|x l Hs IH Hf]; simpl; [constructor|].
  destruct (f x); auto. constructor; auto.
  rewrite Forall_forall in *. intros y Hy. apply filter_In in Hy. apply Hf; tauto.
Qed.

Lemma StronglySorted_nth {A} (P : A -> A -> Prop) l d :
  StronglySorted P l <->
  (forall i j, i < j -> j < length l -> P (nth i l d) (nth j l d)).
Proof.
  split.
  - induction 1 as [|x l Hs IH Hf]; simpl; [lia|].
    intros i j Hij Hj. destruct j as [|j]; [lia|].
    destruct i as [|i].
    + rewrite Forall_forall in Hf. apply Hf, nth_In; lia.
    + apply IH; lia.
  - induction l as [|x l IH]; intros H; constructor.
    + apply IH. intros i j Hij Hj. apply (H (S i) (S j)); simpl; lia.
    + apply Forall_forall. intros y Hy. apply In_nth with (d := d) in Hy as (n & Hn & <-).
      apply (H 0 (S n)); simpl; lia.
Qed.

(** Adjacent pairs characterise sortedness for transitive orders. *)
Lemma StronglySorted_adj {A} (P : A -> A -> Prop) (d : A)
  (tr : forall x y z, P x y -> P y z -> P x z) l :
  (forall i, S i < length l -> P (nth i l d) (nth (S i) l d)) -> StronglySorted P l.
Proof.
  intros H. apply Sorted_StronglySorted; [exact tr|].
  induction l as [|x l IH]; constructor.
  - apply IH. intros i Hi. apply (H (S i)); simpl; lia.
  - destruct l; constructor. apply (H 0); simpl; lia.
Qed.

Lemma mask_in {A} m (l : list A) x : In x (mask m l) -> In x l.
Proof.
  revert l; induction m as [|[] m IH]; intros [|y l]; simpl; auto; try tauto.
  intros [->|H]; auto.
Qed.

Lemma mask_map_filter {A} (p : A -> bool) l : mask (map p l) l = filter p l.
Proof. induction l; simpl; auto. rewrite IHl; destruct (p a); auto. Qed.

Lemma map2_length {A B C} (f : A -> B -> C) l m :
  length (map2 f l m) = Nat.min (length l) (length m).
Proof. revert m; induction l; intros [|y m]; simpl; auto. Qed.

Lemma map2_nth {A B C} (f : A -> B -> C) l m i da db dc :
  i < length l -> i < length m -> nth i (map2 f l m) dc = f (nth i l da) (nth i m db).
Proof.
  revert m i; induction l as [|x l IH]; intros [|y m] [|i]; simpl; try lia; auto.
  intros; apply IH; lia.
Qed.

Lemma init_length {A} (l : list A) : length (init l) = length l - 1.
Proof.
  unfold init. induction l as [|x l IH]; simpl; auto.
  destruct l; simpl in *; auto. rewrite IH; lia.
Qed.

Lemma init_nth {A} (l : list A) i d : S i < length l -> nth i (init l) d = nth i l d.
Proof.
  unfold init. revert i; induction l as [|x l IH]; intros i; simpl; [lia|].
  destruct l as [|y l]; [simpl; lia|].
  destruct i; auto. intros H. simpl in IH |- *.
  apply (IH i). simpl in H; lia.
Qed.

Lemma init_map {A B} (f : A -> B) l : init (map f l) = map f (init l).
Proof.
  unfold init. induction l as [|x [|y l] IH]; simpl; auto. f_equal; exact IH.
Qed.
