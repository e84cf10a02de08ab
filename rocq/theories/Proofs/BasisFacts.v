(** Lemmas about finite-temperature bases. *)
From Coq Require Import Reals ZArith Arith Bool Lra Lia String.
From Coquelicot Require Import Coquelicot.
From Coq Require Import List Sorting.Sorted Permutation.
From Verif.Model Require Import Base Util Num Roots Poly FT SVE Basis.
From Verif.Spec Require Import SPoly SFT SSVE SBasis.
From Verif.Proofs Require Import BaseFacts UtilFacts PPolyFacts SVEFacts FTCall FTProps.
Import ListNotations.
Open Scope R_scope.
Notation length := List.length.

(** ** part *)
Lemma nabove_le e s : (nabove e s <= length s)%nat.
Proof. apply filter_le. Qed.

Lemma take_all p n : (length (vcols p) <= n)%nat -> take n p = p.
Proof. intros H. unfold take. rewrite firstn_all2 by auto. destruct p; auto. Qed.

Lemma slice_nat {A} n (l : list A) : slice_to (Z.of_nat n) l = firstn n l.
Proof. unfold slice_to. rewrite (proj2 (Z.ltb_ge (Z.of_nat n) 0)) by lia. rewrite Nat2Z.id. auto. Qed.

Lemma getslice_nat n p : getslice p (Z.of_nat n) = take n p.
Proof. unfold getslice, take. rewrite slice_nat. auto. Qed.

(** The number of functions part() returns. *)
Definition part_size (s : list R) (e : R) (ms : option pynum) : nat :=
  match ms with
  | Some (PyInt z) => if (z <? 0)%Z then Z.to_nat (Z.of_nat (length s) + z) else Nat.min (Z.to_nat z) (nabove e s)
  | _ => nabove e s
  end.

Lemma part_size_le s e ms : (part_size s e ms <= length s)%nat.
Proof.
  pose proof (nabove_le e s). destruct ms as [[z|x]|]; simpl; auto.
  destruct (z <? 0)%Z eqn:E; [apply Z.ltb_lt in E; lia|lia].
Qed.

Definition float_below (ms : option pynum) (n : nat) : Prop :=
  match ms with Some (PyFloat x) => xleb x (Fin (INR n)) && negb (xeqb x (Fin (INR n))) = true | _ => False end.

Lemma part_val r eps ms e :
  length (vcols (su r)) = length (ss r) -> length (vcols (sv r)) = length (ss r) -> ss r <> [] ->
  eff_eps eps (seps r) = Some e -> ~ float_below ms (nabove e (ss r)) ->
  part r eps ms = Ok (take (part_size (ss r) e ms) (su r), firstn (part_size (ss r) e ms) (ss r),
                      take (part_size (ss r) e ms) (sv r)).
Proof.
  intros Hu Hv Hs He Hf. unfold part, eff_eps in *.
  assert (E : match eps with Some e0 => Some e0 | None => seps r end = Some e) by auto.
  assert (E' : match eps with None => seps r | Some e0 => Some e0 end = Some e) by (destruct eps; auto).
  rewrite E'. clear E E' He.
  assert (Hn : forall n, (n <= length (ss r))%nat ->
    (if (Z.of_nat n =? Z.of_nat (length (ss r)))%Z then Ok (su r, ss r, sv r)
     else Ok (getslice (su r) (Z.of_nat n), slice_to (Z.of_nat n) (ss r), getslice (sv r) (Z.of_nat n))) =
    Ok (take n (su r), firstn n (ss r), take n (sv r))).
  { intros n Hn. destruct (Z.of_nat n =? Z.of_nat (length (ss r)))%Z eqn:E.
    - apply Z.eqb_eq in E. rewrite !take_all, firstn_all2 by lia. auto.
    - rewrite !getslice_nat, slice_nat. auto. }
  pose proof (part_size_le (ss r) e ms) as Hle. pose proof (nabove_le e (ss r)) as Hna.
  destruct (ss r) as [|s0 st] eqn:Es; [easy|].
  change (length (filter (fun x => Rleb (e * s0) x) (s0 :: st))) with (nabove e (s0 :: st)).
  set (s := s0 :: st) in *. clearbody s.
  destruct ms as [[z|x]|]; cbn [part_size] in *.
  - destruct (z <? 0)%Z eqn:E0.
    + apply Z.ltb_lt in E0. rewrite (proj2 (Z.ltb_lt z (Z.of_nat (nabove e s)))) by lia.
      rewrite (proj2 (Z.eqb_neq z (Z.of_nat (length s)))) by lia.
      unfold getslice, take, slice_to. rewrite (proj2 (Z.ltb_lt z 0)) by lia. rewrite Hu, Hv. auto.
    + apply Z.ltb_ge in E0. rewrite <- (Hn (Nat.min (Z.to_nat z) (nabove e s))) by lia.
      replace (if (z <? Z.of_nat (nabove e s))%Z then z else Z.of_nat (nabove e s))
        with (Z.of_nat (Nat.min (Z.to_nat z) (nabove e s))); auto.
      destruct (z <? Z.of_nat (nabove e s))%Z eqn:E1; [apply Z.ltb_lt in E1|apply Z.ltb_ge in E1]; lia.
  - simpl in Hf. destruct (xleb x (Fin (INR (nabove e s))) && negb (xeqb x (Fin (INR (nabove e s))))); [tauto|].
    apply Hn. auto.
  - apply Hn. auto.
Qed.

Lemma part_float r eps x e : ss r <> [] -> eff_eps eps (seps r) = Some e ->
  float_below (Some (PyFloat x)) (nabove e (ss r)) -> part r eps (Some (PyFloat x)) = Raise TypeError.
Proof.
  intros Hs He Hf. unfold part. destruct (ss r) as [|s0 st] eqn:Es; [easy|].
  replace (match eps with None => seps r | Some e0 => Some e0 end) with (Some e) by (destruct eps; auto).
  change (length (filter (fun x => Rleb (e * s0) x) (s0 :: st))) with (nabove e (s0 :: st)).
  simpl in Hf. rewrite Hf. auto.
Qed.

Lemma part_errors r eps ms :
  (ss r = [] -> part r eps ms = Raise IndexError) /\
  (ss r <> [] -> eff_eps eps (seps r) = None -> part r eps ms = Raise TypeError).
Proof.
  unfold part, eff_eps. split.
  - intros ->. auto.
  - intros H He. destruct (ss r); [easy|]. destruct eps; [easy|]. rewrite He. auto.
Qed.

Lemma nabove_prefix e s : 0 <= e -> nonincreasing s ->
  firstn (nabove e s) s = filter (fun x => Rleb (e * nth 0 s 0) x) s.
Proof.
  intros He Hs. apply filter_firstn_sorted; auto. intros a b _ _ Hab. rewrite !Rleb_true. lra.
Qed.

(** ** Change of variables *)
Section Rescale.
Variables (p : vpoly) (a c : R).
Let f x := c * x + a.
Hypothesis Hc : 0 < c.

Definition scaled_geom (g : geom) : geom :=
  Geom (glen g) (glen g) (gnseg g) (map (fun x => c * x + a) (gknots g)) (map (fun d => c * d) (gdx g)).

Lemma map_sorted l : StronglySorted Rlt l -> StronglySorted Rlt (map f l).
Proof. intros H. eapply StronglySorted_map; [|exact H]. intros x y Hxy. unfold f. nra. Qed.

Lemma nth_map0 l i : (i < length l)%nat -> nth i (map f l) 0 = f (nth i l 0).
Proof. intros H. rewrite (nth_indep _ 0 (f 0)) by (rewrite map_length; auto). apply map_nth. Qed.

Lemma scaled_ok g : geom_ok g -> geom_ok (scaled_geom g).
Proof.
  intros (H1 & H2 & H3 & H4 & H5). unfold geom_ok, scaled_geom. cbn [gnseg gknots gdx].
  split; auto. split; [rewrite map_length; auto|]. split; [apply map_sorted; auto|].
  split; [rewrite map_length; auto|]. intros i Hi.
  fold f. rewrite !nth_map0 by lia.
  rewrite (nth_indep _ 0 (c * 0)) by (rewrite map_length; lia).
  rewrite (map_nth (fun d => c * d)). rewrite H5 by auto. unfold f. ring.
Qed.

Lemma scaled_knot g i : (i < length (gknots g))%nat -> knot (scaled_geom g) i = c * knot g i + a.
Proof. intros H. unfold knot, scaled_geom. cbn [gknots]. fold f. rewrite nth_map0 by auto. auto. Qed.

Lemma scaled_segment g x : segment (scaled_geom g) (c * x + a) = segment g x.
Proof.
  unfold segment, scaled_geom. cbn [gknots gnseg]. f_equal. f_equal.
  induction (gknots g) as [|k l IH]; auto. simpl.
  replace (Rleb (c * k + a) (c * x + a)) with (Rleb k x).
  - destruct (Rleb k x); simpl; rewrite IH; auto.
  - destruct (Rleb k x) eqn:E; symmetry; [apply Rleb_true in E; apply Rleb_true; nra|apply Rleb_false in E; apply Rleb_false; nra].
Qed.

Lemma scaled_cval g d x : geom_ok g ->
  cval (scaled_geom g) d (c * x + a) = / sqrt c * cval g d x.
Proof.
  intros Hg. unfold cval. rewrite scaled_segment. set (i := segment g x).
  assert (Hi : (i < gnseg g)%nat).
  { unfold i, segment. destruct Hg as (H & _). lia. }
  destruct Hg as (H1 & H2 & H3 & H4 & H5).
  assert (Hd : 0 < nth i (gdx g) 0).
  { rewrite H5 by auto. pose proof (PPolyFacts.sorted_nth_lt (gknots g) i (S i) H3 ltac:(lia)). lra. }
  assert (Ei : ginv (scaled_geom g) i = ginv g i / c).
  { unfold ginv, scaled_geom. cbn [gdx]. rewrite (nth_indep _ 0 (c * 0)) by (rewrite map_length; lia).
    rewrite (map_nth (fun d => c * d)). field. split; lra. }
  assert (En : gnorm (scaled_geom g) i = / sqrt c * gnorm g i).
  { unfold gnorm. rewrite Ei. rewrite sqrt_div; auto.
    - unfold Rdiv. ring.
    - unfold ginv. apply Rlt_le, Rdiv_lt_0_compat; lra. }
  rewrite En. rewrite Ei.
  replace ((c * x + a - gxm (scaled_geom g) i) * (ginv g i / c)) with ((x - gxm g i) * ginv g i).
  - cbn [glen scaled_geom]. ring.
  - unfold gxm. change (nth (S i) (gknots (scaled_geom g)) 0) with (knot (scaled_geom g) (S i)).
    change (nth i (gknots (scaled_geom g)) 0) with (knot (scaled_geom g) i).
    rewrite !scaled_knot by lia. unfold knot. field. lra.
Qed.

Lemma allclose_refl l m : (forall i, (i < length l)%nat -> nth i l 0 = nth i m 0) -> length l = length m ->
  allclose l m = true.
Proof.
  revert m. induction l as [|x l IH]; intros [|y m] H Hl; try easy; auto.
  unfold allclose in *. simpl in *. rewrite IH; [|intros i Hi; apply (H (S i)); lia|lia].
  rewrite andb_true_r. pose proof (H 0%nat ltac:(lia)) as E. simpl in E. subst y.
  unfold close. apply Rleb_true. replace (x - x) with 0 by ring. rewrite Rabs_R0.
  pose proof (Rabs_pos x). assert (0 < / 10 ^ 8) by (apply Rinv_0_lt_compat; lra).
  assert (0 < / 10 ^ 5) by (apply Rinv_0_lt_compat; lra). nra.
Qed.

Lemma map2_cols cols : map2 Col (map cdat cols) (map csym cols) = cols.
Proof. induction cols as [|[d s] l IH]; simpl; auto. rewrite IH. auto. Qed.

Lemma rescaled_val : geom_ok (vgeom p) ->
  forall h, (forall x, h x = c * x + a) ->
  rescaled p h c = Ok (VPoly (scaled_geom (vgeom p)) (vcols p)).
Proof.
  intros Hg h Hh. unfold rescaled, poly_init.
  assert (Em : map h (gknots (vgeom p)) = map f (gknots (vgeom p))) by (apply map_ext; auto).
  rewrite Em. pose proof (scaled_ok _ Hg) as Hs. destruct Hs as (H1 & H2 & H3 & H4 & H5).
  cbn [scaled_geom gnseg gknots gdx] in *. fold f in H2, H3, H5.
  rewrite H2, Nat.eqb_refl. cbn [negb].
  assert (Ef : forallb (fun b => b) (map2 (fun a b => Rleb a b) (init (map f (gknots (vgeom p)))) (tl (map f (gknots (vgeom p))))) = true).
  { apply forallb_map2_le. intros i Hi. apply Rleb_true. apply Rlt_le.
    apply (PPolyFacts.sorted_nth_lt _ i (S i) H3). lia. }
  rewrite Ef. cbn [negb]. rewrite !map_length, Nat.eqb_refl. cbn [bind].
  rewrite map_length in H4. rewrite H4, Nat.eqb_refl.
  rewrite allclose_refl.
  - cbn [andb bind]. rewrite map2_cols. reflexivity.
  - intros i Hi. rewrite map_length in Hi. rewrite diffs_nth by (rewrite H2; lia). apply H5. lia.
  - rewrite diffs_length, H2, map_length. lia.
Qed.
End Rescale.
