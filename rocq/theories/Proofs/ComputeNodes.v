(** The polynomials built by SamplingSVE interpolate at the Gauss nodes, and their
    inner products are those of the singular vectors. *)
From Coq Require Import String ZArith Arith Bool Reals Lra Lia Psatz.
From Coquelicot Require Import Coquelicot.
From Coq Require Import List Sorting.Sorted.
From Verif.Model Require Import Base Num Gauss Poly SVE Compute.
From Verif.Spec Require Import SGauss SPoly SCompute.
From Verif.Proofs Require Import BaseFacts SumFacts IntFacts LegFacts GaussFacts GaussExact PPolyFacts PPolyInt.
Import ListNotations.
Open Scope R_scope.
Notation length := List.length.
Arguments legP : simpl never.

(** * Nodes and weights of a piecewise rule *)
Lemma nth_map_in {A B} (h : A -> B) l i d e : (i < length l)%nat -> nth i (map h l) e = h (nth i l d).
Proof. intros Hi. rewrite (nth_indep _ e (h d)) by (rewrite map_length; auto). apply map_nth. Qed.

Lemma nth_concat_blocks {A B} (h : B -> list A) n d e : forall (l : list B), (forall b, In b l -> length (h b) = n) ->
  forall i j, (i < length l)%nat -> (j < n)%nat -> nth (i * n + j) (concat (map h l)) d = nth j (h (nth i l e)) d.
Proof.
  induction l as [|b l IH]; intros Hl i j Hi Hj; cbn [List.length] in Hi; [lia|].
  cbn [map concat]. destruct i.
  - cbn [Nat.mul Nat.add nth]. rewrite app_nth1; auto. rewrite Hl; [auto|left; auto].
  - rewrite app_nth2; rewrite (Hl b) by (left; auto); [|cbn; lia].
    replace (S i * n + j - n)%nat with (i * n + j)%nat by (cbn; lia). cbn [nth].
    apply IH; [intros; apply Hl; right; auto|lia|auto].
Qed.

Lemma concat_blocks_length {A B} (h : B -> list A) n : forall (l : list B), (forall b, In b l -> length (h b) = n) ->
  length (concat (map h l)) = (length l * n)%nat.
Proof.
  induction l as [|b l IH]; intros Hl; cbn; auto. rewrite app_length, Hl by (left; auto). rewrite IH; auto.
  intros; apply Hl; right; auto.
Qed.

Section Nodes.
Variables (n : nat) (r : rule) (segs : list R) (q : rule).
Hypothesis Hr : gauss_ok n r.
Hypothesis Hs : edges_ok segs.
Hypothesis Hq : piecewise r segs = Ok q.

Let m := (length segs - 1)%nat.
Let a i := nth i segs 0.

Lemma seg_lt i : (i < m)%nat -> a i < a (S i).
Proof. intros Hi. destruct Hs as [Hl Hss]. apply PPolyFacts.sorted_nth_lt; auto. unfold m in Hi. lia. Qed.

Lemma pieces : rx q = concat (map rx (map2 (reseat r) (init segs) (tl segs))) /\
               rw q = concat (map rw (map2 (reseat r) (init segs) (tl segs))).
Proof.
  pose proof Hq as H. unfold piecewise in H. destruct (forallb _ _); [|discriminate].
  apply join_ok_inv in H as (_ & r0 & tl & E & ->).
  - rewrite E. split; reflexivity.
  - destruct Hs as [Hl _]. destruct segs as [|x [|y l]]; cbn in Hl; try lia. destruct l; discriminate.
Qed.

Lemma pieces_len : length (map2 (reseat r) (init segs) (tl segs)) = m.
Proof.
  rewrite map2_length. unfold init. destruct Hs as [Hl _]. unfold m.
  destruct segs as [|x l] eqn:E; [cbn in Hl; lia|].
  assert (length (removelast (x :: l)) = length l).
  { assert (Hne : x :: l <> []) by discriminate.
    pose proof (app_removelast_last 0 Hne) as Ea. apply (f_equal (@List.length R)) in Ea.
    rewrite app_length in Ea. cbn [List.length] in Ea. lia. }
  cbn [tl List.length]. lia.
Qed.

Lemma pieces_nth i : (i < m)%nat -> nth i (map2 (reseat r) (init segs) (tl segs)) r = reseat r (a i) (a (S i)).
Proof.
  intros Hi. pose proof pieces_len as Hl.
  assert (E : nth_error (map2 (reseat r) (init segs) (tl segs)) i = Some (reseat r (a i) (a (S i)))).
  { unfold a, m in *. clear - Hi. revert i Hi. induction segs as [|x [|y l] IH]; intros i Hi; cbn [List.length] in Hi; try lia.
    destruct i.
    - reflexivity.
    - exact (IH i ltac:(cbn [List.length]; lia)). }
  apply nth_error_nth. exact E.
Qed.

Lemma node_lengths : length (rx q) = (m * n)%nat /\ length (rw q) = (m * n)%nat.
Proof.
  destruct pieces as [-> ->]. rewrite <- pieces_len. destruct Hr as (_ & Hx & Hw & _).
  split; apply concat_blocks_length; intros b Hb.
  - apply (In_nth _ _ r) in Hb as (i & Hi & <-). rewrite pieces_len in Hi. rewrite pieces_nth by auto. cbn. rewrite map_length; auto.
  - apply (In_nth _ _ r) in Hb as (i & Hi & <-). rewrite pieces_len in Hi. rewrite pieces_nth by auto. cbn. rewrite map_length; auto.
Qed.

Lemma node_at i j : (i < m)%nat -> (j < n)%nat ->
  nth (i * n + j) (rx q) 0 = (a (S i) - a i) / 2 * nth j (rx r) 0 + (a (S i) + a i) / 2 /\
  nth (i * n + j) (rw q) 0 = nth j (rw r) 0 * ((a (S i) - a i) / 2).
Proof.
  intros Hi Hj. destruct Hr as (_ & Hx & Hw & _ & _ & Ha & Hb & _).
  destruct pieces as [-> ->]. split.
  - rewrite (nth_concat_blocks rx n 0 r).
    + rewrite pieces_nth by auto. cbn [reseat rule_init rx]. rewrite Ha, Hb.
      rewrite (nth_map_in _ _ _ 0 0) by lia. field.
    + intros b Hb'. apply (In_nth _ _ r) in Hb' as (i' & Hi' & <-). rewrite pieces_len in Hi'. rewrite pieces_nth by auto. cbn. rewrite map_length; auto.
    + rewrite pieces_len. auto.
    + auto.
  - rewrite (nth_concat_blocks rw n 0 r).
    + rewrite pieces_nth by auto. cbn [reseat rule_init rw]. rewrite Ha, Hb.
      rewrite (nth_map_in _ _ _ 0 0) by lia. field.
    + intros b Hb'. apply (In_nth _ _ r) in Hb' as (i' & Hi' & <-). rewrite pieces_len in Hi'. rewrite pieces_nth by auto. cbn. rewrite map_length; auto.
    + rewrite pieces_len. auto.
    + auto.
Qed.

Lemma rule_node j : (j < n)%nat -> -1 < nth j (rx r) 0 < 1 /\ 0 < nth j (rw r) 0.
Proof.
  intros Hj. destruct Hr as (_ & Hx & Hw & [_ Hp] & Hpos & Ha & Hb & _).
  rewrite Ha, Hb in Hp. rewrite Forall_forall in Hp, Hpos. split; [apply Hp|apply Hpos]; apply nth_In; lia.
Qed.

Lemma weight_pos p : (p < m * n)%nat -> 0 < nth p (rw q) 0.
Proof.
  intros Hp. destruct Hr as (Hn & _).
  rewrite (Nat.div_mod p n) by lia. rewrite (Nat.mul_comm n).
  assert (Hi : (p / n < m)%nat) by (apply Nat.div_lt_upper_bound; lia).
  assert (Hj : (p mod n < n)%nat) by (apply Nat.mod_upper_bound; lia).
  rewrite (proj2 (node_at _ _ Hi Hj)). pose proof (seg_lt _ Hi). pose proof (rule_node _ Hj).
  apply Rmult_lt_0_compat; lra.
Qed.

(** * Interpolation *)
Variable g : geom.
Hypothesis Hg : geom_ok g.
Hypothesis Hgk : gknots g = segs.
Hypothesis Hgl : glen g = n.

Lemma nseg_m : gnseg g = m.
Proof. destruct Hg as (_ & Hl & _). rewrite Hgk in Hl. unfold m. lia. Qed.
Lemma knot_a i : knot g i = a i.
Proof. unfold knot, a. rewrite Hgk. reflexivity. Qed.

Lemma divided (vec : list R) p : length vec = (m * n)%nat -> (p < m * n)%nat ->
  nth p (map2 (fun a w => a / w) vec (sqrtw q)) 0 = nth p vec 0 / sqrt (nth p (rw q) 0).
Proof.
  intros Hv Hp. destruct node_lengths as [_ Hw].
  rewrite (map2_nth _ _ _ _ 0 0 0) by (unfold sqrtw; rewrite ?map_length; lia).
  unfold sqrtw. rewrite (nth_map_in _ _ _ 0 0) by lia. reflexivity.
Qed.

Lemma nodup : NoDup (rx r).
Proof.
  destruct Hr as (_ & _ & _ & [Hp _] & _). clear - Hp. induction Hp; constructor; auto.
  intros Hin. rewrite Forall_forall in H. specialize (H _ Hin). lra.
Qed.

Lemma weaken : exact_to (2 * n - 2) (rx r) (rw r) (-1) 1.
Proof.
  destruct Hr as (Hn & _ & _ & _ & _ & _ & _ & He). intros f Hf. apply He. unfold polynomial in *.
  eapply PolyFacts.polylt_mono; [|exact Hf]. lia.
Qed.

Lemma interpolates vec sy i j : length vec = (m * n)%nat -> (i < m)%nat -> (j < n)%nat ->
  cval g (Col (collocate n r segs (sqrtw q) vec) sy) (nth (i * n + j) (rx q) 0) =
  nth (i * n + j) vec 0 / sqrt (nth (i * n + j) (rw q) 0).
Proof.
  intros Hv Hi Hj. pose proof nseg_m as Hm. pose proof (seg_lt i Hi) as Hlt.
  destruct (rule_node j Hj) as [Ht Hw]. destruct (node_at i j Hi Hj) as [Ex Ew].
  set (x := nth (i * n + j) (rx q) 0) in *.
  rewrite (cval_seg g Hg _ i).
  2:{ lia. } 2:{ rewrite knot_a, Ex. nra. } 2:{ left. rewrite knot_a, Ex. nra. }
  unfold seg_fun. rewrite Hgl, !knot_a.
  replace ((2 * x - a i - a (S i)) / (a (S i) - a i)) with (nth j (rx r) 0) by (rewrite Ex; field; lra).
  cbn [cdat]. unfold collocate.
  change (nth (S i) segs 0) with (a (S i)). change (nth i segs 0) with (a i).
  set (L := a (S i) - a i). assert (HL : 0 < L) by (unfold L; lra).
  set (ux := map2 (fun a0 w => a0 / w) vec (sqrtw q)).
  rewrite (sumn_ext _ _ (fun k => sqrt (/ 2 * L) * sumn n (fun j' => (legP k (nth j (rx r) 0) * legendre_collocation r n k j') * nth (i * n + j') ux 0))).
  2:{ intros k _. rewrite (sumn_ext _ (fun j' => legP k (nth j (rx r) 0) * legendre_collocation r n k j' * nth (i * n + j') ux 0) (fun j' => legP k (nth j (rx r) 0) * (legendre_collocation r n k j' * nth (i * n + j') ux 0)))
       by (intros; ring). rewrite sumn_scal. ring. }
  rewrite sumn_scal, sumn_swap.
  rewrite (sumn_ext _ _ (fun j' => (if Nat.eqb j j' then 1 else 0) * nth (i * n + j') ux 0)).
  2:{ intros j' Hj'. rewrite sumn_scal_r. f_equal.
      destruct Hr as (_ & Hx & Hw' & _). apply colloc_left; auto using nodup, weaken. }
  rewrite (sumn_single _ _ j) by (auto; intros j' Hj' Hne; rewrite (proj2 (Nat.eqb_neq j j')) by auto; ring).
  rewrite Nat.eqb_refl.
  assert (Es : sqrt (2 / L) * sqrt (/ 2 * L) = 1).
  { rewrite <- sqrt_mult_alt by (apply Rlt_le, Rdiv_lt_0_compat; lra).
    replace (2 / L * (/ 2 * L)) with 1 by (field; lra). apply sqrt_1. }
  unfold ux. rewrite divided.
  - rewrite <- Rmult_assoc, Es. ring.
  - auto.
  - nia.
Qed.

(** * Inner products *)
Lemma inner_coeff (va vb : list R) sa sb : length va = (m * n)%nat -> length vb = (m * n)%nat ->
  sumn m (fun i => sumn n (fun k => cdat (Col (collocate n r segs (sqrtw q) va) sa) k i *
                                     cdat (Col (collocate n r segs (sqrtw q) vb) sb) k i * (2 / (2 * INR k + 1)))) =
  sumn (m * n) (fun p => nth p va 0 * nth p vb 0).
Proof.
  intros Ha Hb. destruct Hr as (Hn & Hx & Hw' & _).
  assert (E : forall i, (i < m)%nat ->
    sumn n (fun k => cdat (Col (collocate n r segs (sqrtw q) va) sa) k i *
                                     cdat (Col (collocate n r segs (sqrtw q) vb) sb) k i * (2 / (2 * INR k + 1))) =
    sumn n (fun j => nth (i * n + j) va 0 * nth (i * n + j) vb 0)).
  { intros i Hi. cbn [cdat]. unfold collocate.
    change (nth (S i) segs 0) with (a (S i)). change (nth i segs 0) with (a i).
    pose proof (seg_lt i Hi) as Hlt. set (L := a (S i) - a i). assert (HL : 0 < L) by (unfold L; lra).
    set (ua := map2 (fun a0 w => a0 / w) va (sqrtw q)). set (ub := map2 (fun a0 w => a0 / w) vb (sqrtw q)).
    assert (Es : sqrt (/ 2 * L) * sqrt (/ 2 * L) = L / 2) by (rewrite sqrt_sqrt; lra).
    (* expand the second factor by the definition of the collocation matrix *)
    rewrite (sumn_ext _ _ (fun k => sumn n (fun j => L / 2 * nth j (rw r) 0 * nth (i * n + j) ub 0 *
       sumn n (fun j' => (legP k (nth j (rx r) 0) * legendre_collocation r n k j') * nth (i * n + j') ua 0)))).
    2:{ intros k _.
        set (SA := sumn n (fun j => legendre_collocation r n k j * nth (i * n + j) ua 0)).
        transitivity ((L / 2 * (2 / (2 * INR k + 1)) * SA) * sumn n (fun j => legendre_collocation r n k j * nth (i * n + j) ub 0)).
        { rewrite <- Es. ring. }
        rewrite <- sumn_scal. apply sumn_ext. intros j Hj.
        rewrite (sumn_ext _ (fun j' => legP k (nth j (rx r) 0) * legendre_collocation r n k j' * nth (i * n + j') ua 0)
                   (fun j' => legP k (nth j (rx r) 0) * (legendre_collocation r n k j' * nth (i * n + j') ua 0))) by (intros; ring).
        rewrite sumn_scal. fold SA. unfold legendre_collocation. pose proof (INR_nonneg k). field. lra. }
    rewrite sumn_swap. apply sumn_ext. intros j Hj. rewrite sumn_scal.
    rewrite sumn_swap.
    rewrite (sumn_ext _ _ (fun j' => (if Nat.eqb j j' then 1 else 0) * nth (i * n + j') ua 0)).
    2:{ intros j' Hj'. rewrite sumn_scal_r. f_equal. apply colloc_left; auto using nodup, weaken. }
    rewrite (sumn_single _ _ j) by (auto; intros j' Hj' Hne; rewrite (proj2 (Nat.eqb_neq j j')) by auto; ring).
    rewrite Nat.eqb_refl.
    assert (Hp : (i * n + j < m * n)%nat) by nia.
    unfold ua, ub. rewrite !divided by auto. pose proof (weight_pos _ Hp) as Hwp.
    set (w := nth (i * n + j) (rw q) 0) in *. set (A := nth (i * n + j) va 0). set (B := nth (i * n + j) vb 0).
    assert (Ew : L / 2 * nth j (rw r) 0 = w).
    { unfold w. rewrite (proj2 (node_at i j Hi Hj)). unfold L. ring. }
    rewrite Ew. pose proof (sqrt_lt_R0 w Hwp) as Hq0. pose proof (sqrt_sqrt w (Rlt_le _ _ Hwp)) as Hsq.
    rewrite <- Hsq at 1. field. lra. }
  rewrite (sumn_ext _ _ _ E). clear E.
  clear. induction m as [|m' IH]; cbn [sumn Nat.mul]; auto.
  rewrite (Nat.add_comm n), sumn_app, <- IH. f_equal.
Qed.

Lemma dot_sumn (x y : list R) p : length x = p -> length y = p -> dot x y = sumn p (fun i => nth i x 0 * nth i y 0).
Proof.
  unfold dot. revert y p. induction x as [|u x IH]; intros [|v y] p Hx Hy; cbn [List.length] in *; subst p; try discriminate; [reflexivity|].
  cbn [map2]. rewrite rsum_cons, sumn_shift. cbn [nth]. f_equal. apply IH; auto.
Qed.

Lemma inner_vectors va vb sa sb : length va = (m * n)%nat -> length vb = (m * n)%nat ->
  is_RInt (fun x => cval g (Col (collocate n r segs (sqrtw q) va) sa) x * cval g (Col (collocate n r segs (sqrtw q) vb) sb) x)
          (gxmin g) (gxmax g) (dot va vb).
Proof.
  intros Ha Hb. apply (orthonormal_iff g); auto. rewrite nseg_m, Hgl, inner_coeff by auto.
  symmetry. apply dot_sumn; auto.
Qed.
End Nodes.
