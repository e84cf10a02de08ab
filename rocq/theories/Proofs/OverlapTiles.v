(** Tilings of an interval and their refinement. *)
From Coq Require Import Reals Lra Lia Arith.
From Coq Require Import List Sorting.Sorted Sorting.Permutation.
From Verif.Model Require Import Base Num Gauss Kronrod Poly Overlap.
From Verif.Spec Require Import SGauss SOverlap.
Import ListNotations.
Open Scope R_scope.

Definition pairs (e : list R) : list (R * R) := combine (removelast e) (tl e).
Lemma pairs_cons x y l : pairs (x :: y :: l) = (x, y) :: pairs (y :: l).
Proof. unfold pairs. cbn [removelast tl combine]. destruct l; reflexivity. Qed.
Lemma pairs_app a x b : pairs (a ++ x :: b) = pairs (a ++ [x]) ++ pairs (x :: b).
Proof.
  induction a as [|u a IH]; [reflexivity|]. destruct a as [|v a].
  - cbn [app]. rewrite !pairs_cons. reflexivity.
  - cbn [app] in *. rewrite !pairs_cons, IH. reflexivity.
Qed.
Lemma pairs_in e s t : In (s, t) (pairs e) -> exists a b, e = a ++ s :: t :: b.
Proof.
  induction e as [|x e IH]; [intros []|]. destruct e as [|y e]; [intros []|]. rewrite pairs_cons.
  intros [[= -> ->]|H]; [exists [], e; reflexivity|]. destruct (IH H) as (a & b & E). exists (x :: a), b. rewrite E. reflexivity.
Qed.

Lemma sorted_app (l m : list R) : StronglySorted Rle (l ++ m) <->
  StronglySorted Rle l /\ StronglySorted Rle m /\ forall x y, In x l -> In y m -> x <= y.
Proof.
  induction l as [|a l IH]; cbn [app].
  - split; [intros H; repeat split; auto; [constructor|intros ? ? []]|tauto].
  - split.
    + intros H. apply StronglySorted_inv in H as [H Hf]. apply IH in H as (A & B & C). rewrite Forall_forall in Hf.
      repeat split; auto.
      * constructor; auto. apply Forall_forall. intros x Hx. apply Hf, in_or_app. auto.
      * intros x y [<-|Hx] Hy; [apply Hf, in_or_app; auto|auto].
    + intros (A & B & C). apply StronglySorted_inv in A as [A Hf]. rewrite Forall_forall in Hf. constructor.
      * apply IH. repeat split; auto. intros x y Hx Hy. apply C; [right|]; auto.
      * apply Forall_forall. intros x Hx. apply in_app_or in Hx as [Hx|Hx]; [auto|apply C; [left|]; auto].
Qed.

Definition edge (radix : nat) (s t : R) : list R := map (fun k => s + INR k * ((t - s) / INR radix)) (seq 0 (S radix)).
Lemma cells_edge radix s t : cells radix (s, t) = pairs (edge radix s t).
Proof. reflexivity. Qed.
Lemma edge_shape radix s t : (0 < radix)%nat -> exists mid, edge radix s t = s :: mid ++ [t].
Proof.
  intros Hr. destruct radix as [|m]; [lia|]. unfold edge. exists (map (fun k => s + INR k * ((t - s) / INR (S m))) (seq 1 m)).
  replace (seq 0 (S (S m))) with (0%nat :: seq 1 m ++ [S m]) by (rewrite (seq_S (S m) 0); reflexivity).
  cbn [map]. rewrite map_app. cbn [map]. f_equal; [simpl INR; ring|]. f_equal. f_equal.
  assert (0 < INR (S m)) by (apply lt_0_INR; lia). field. lra.
Qed.
Lemma edge_range radix s t x : (0 < radix)%nat -> s <= t -> In x (edge radix s t) -> s <= x <= t.
Proof.
  intros Hr Hst Hx. apply in_map_iff in Hx as (k & <- & Hk). apply in_seq in Hk.
  assert (0 < INR radix) by (apply lt_0_INR; lia). assert (0 <= INR k <= INR radix) by (split; [apply pos_INR|apply le_INR; lia]).
  assert (0 <= (t - s) / INR radix) by (apply Rmult_le_pos; [lra|left; apply Rinv_0_lt_compat; lra]).
  split; [nra|]. replace t with (s + INR radix * ((t - s) / INR radix)) at 2 by (field; lra). nra.
Qed.
Lemma edge_sorted radix s t : s <= t -> StronglySorted Rle (edge radix s t).
Proof.
  intros Hst. assert (H : forall n a, StronglySorted Rle (map (fun k => s + INR k * ((t - s) / INR radix)) (seq a n))).
  { induction n; intros a; cbn [seq map]; constructor; auto. apply Forall_forall. intros x Hx. apply in_map_iff in Hx as (k & <- & Hk).
    apply in_seq in Hk. assert (0 <= (t - s) / INR radix).
    { destruct radix; [simpl; unfold Rdiv; rewrite Rinv_0; lra|]. apply Rmult_le_pos; [lra|left; apply Rinv_0_lt_compat, lt_0_INR; lia]. }
    assert (INR a <= INR k) by (apply le_INR; lia). nra. }
  apply H.
Qed.

Lemma tiles_perm iv iv' kn : Permutation iv iv' -> tiles iv kn -> tiles iv' kn.
Proof. intros P (e & A & B & C & D & E). exists e. repeat split; auto. rewrite <- P. exact E. Qed.

Lemma hd_app {A} (a b : list A) x : hd_error (a ++ x :: b) = hd_error (a ++ [x]).
Proof. destruct a; reflexivity. Qed.

Lemma tiles_split radix st r kn : (0 < radix)%nat -> tiles (st :: r) kn -> tiles (cells radix st ++ r) kn.
Proof.
  intros Hr (e & A & B & C & D & E). destruct st as [s t]. fold (pairs e) in E.
  destruct (pairs_in e s t) as (a & b & ->); [apply (Permutation_in _ E); left; auto|].
  apply sorted_app in A as (A1 & A2 & A3). apply StronglySorted_inv in A2 as [A2 A4]. rewrite Forall_forall in A4.
  assert (Hst : s <= t) by (apply A4; left; auto).
  apply StronglySorted_inv in A2 as [A2 A5]. rewrite Forall_forall in A5.
  destruct (edge_shape radix s t Hr) as (mid & Em). pose proof (edge_range radix s t) as Hrg. pose proof (edge_sorted radix s t Hst) as Hes.
  exists (a ++ edge radix s t ++ b). repeat split.
  - apply sorted_app. split; [auto|]. split.
    + apply sorted_app. split; [auto|]. split; [auto|]. intros x y Hx Hy. specialize (Hrg x Hr Hst Hx). specialize (A5 y Hy). lra.
    + intros x y Hx Hy. assert (x <= s) by (apply A3; [auto|left; auto]). apply in_app_or in Hy as [Hy|Hy].
      * specialize (Hrg y Hr Hst Hy). lra.
      * apply A3; [auto|right; right; auto].
  - intros x Hx. apply B in Hx. rewrite Em. rewrite !in_app_iff in *. cbn [In] in *. rewrite in_app_iff. cbn. tauto.
  - rewrite <- C, Em. cbn [app]. rewrite (hd_app a (t :: b)), (hd_app a ((mid ++ [t]) ++ b)). reflexivity.
  - rewrite <- D, Em. replace (a ++ (s :: mid ++ [t]) ++ b) with ((a ++ s :: mid) ++ t :: b) by (rewrite <- !app_assoc; cbn [app]; rewrite <- app_assoc; reflexivity).
    replace (a ++ s :: t :: b) with ((a ++ [s]) ++ t :: b) by (rewrite <- app_assoc; reflexivity).
    rewrite !rev_app_distr. cbn [rev]. destruct (rev b); reflexivity.
  - fold (pairs (a ++ edge radix s t ++ b)). rewrite cells_edge.
    rewrite Em. cbn [app]. rewrite pairs_app. replace ((mid ++ [t]) ++ b) with (mid ++ t :: b) by (rewrite <- app_assoc; reflexivity).
    change (s :: mid ++ t :: b) with ((s :: mid) ++ t :: b). rewrite (pairs_app (s :: mid) t b). cbn [app]. rewrite pairs_app, pairs_cons in E.
    rewrite <- Permutation_middle in E. apply Permutation_cons_inv in E. rewrite E.
    rewrite !app_assoc. apply Permutation_app_tail, Permutation_app_comm.
Qed.

Lemma tiles_refine radix iv D kn : (0 < radix)%nat -> tiles (D ++ iv) kn -> tiles (D ++ flat_map (cells radix) iv) kn.
Proof.
  intros Hr. revert D. induction iv as [|st iv IH]; intros D H; [auto|]. cbn [flat_map].
  rewrite app_assoc. apply IH. rewrite <- app_assoc.  apply (tiles_perm (D ++ st :: iv) (st :: D ++ iv)) in H; [|apply Permutation_sym, Permutation_middle].
  apply (tiles_split radix) in H; auto. eapply tiles_perm; [|exact H].
  rewrite !app_assoc. apply Permutation_app_tail, Permutation_app_comm.
Qed.

Lemma tiles_start kn : StronglySorted Rle kn -> tiles (combine (removelast kn) (tl kn)) kn.
Proof. intros H. exists kn. repeat split; auto. apply incl_refl. Qed.

Lemma cells_nonempty radix st : (0 < radix)%nat -> cells radix st <> [].
Proof.
  intros Hr. destruct st as [s t]. rewrite cells_edge. destruct (edge_shape radix s t Hr) as ([|x mid] & ->); cbn [app]; rewrite pairs_cons; discriminate.
Qed.

(** Every interval of a tiling lies between the ends and is not reversed. *)
Lemma tiles_in iv kn s t : tiles iv kn -> In (s, t) iv -> s <= t /\ forall a b, hd_error kn = Some a -> hd_error (rev kn) = Some b -> a <= s /\ t <= b.
Proof.
  intros (e & A & B & C & D & E) H. apply (Permutation_in _ E) in H. fold (pairs e) in H. apply pairs_in in H as (u & v & ->).
  apply sorted_app in A as (A1 & A2 & A3). apply StronglySorted_inv in A2 as [A2 A4]. rewrite Forall_forall in A4.
  split; [apply A4; left; auto|]. intros a b Ha Hb. rewrite <- C in Ha. rewrite <- D in Hb. split.
  - destruct u as [|a' u]; cbn in Ha; injection Ha as <-; [lra|]. apply A3; left; auto.
  - apply StronglySorted_inv in A2 as [A2 A5]. rewrite Forall_forall in A5.
    rewrite rev_app_distr in Hb. cbn [rev] in Hb. rewrite <- !app_assoc in Hb.
    destruct (rev v) as [|b' v'] eqn:Ev; cbn in Hb; injection Hb as <-; [lra|]. apply A5. apply in_rev. rewrite Ev. left; auto.
Qed.
