(** Values of the singular functions whose coefficients are computed in rounded
    arithmetic, inner products, and an example in doubles. *)
From Coq Require Import String ZArith Arith Bool Reals Lra Lia.
From Coquelicot Require Import Coquelicot.
From Coq Require Import List Sorting.Sorted.
From Verif.Model Require Import Base Util Num IEEE Gauss Poly PolyIEEE SVE Kernel KernelIEEE GaussIEEE Compute SVEIEEE.
From Verif.Spec Require Import SGauss SPoly SCompute SKernelIEEE SGaussIEEE SPolyIEEE SSamplingIEEE SSVEIEEE.
From Verif.Proofs Require Import BaseFacts SumFacts LegFacts GaussFacts PPolyFacts ComputeNodes ComputePost KernelRound KernelRoundCall ComputeCase GaussRound GaussRoundRule RoundedSVE MatrixRoundMore PolyRound DotRound LegRecur CoefRound CoefSegment.
Import ListNotations.
Open Scope R_scope.
Notation length := List.length.
Arguments legP : simpl never.

(** * Coefficients and functions *)
Section Fun.
Variables (u eta e : R) (rw ro : R -> R) (n : nat) (q r : rule) (sg om rho gam th : R) (dot : nat -> nat -> list R -> list R -> R).
Variables (segs : list R) (G g : rule) (vec : list R).
Hypothesis Hs : coefficient_setting u eta e rw ro n q r sg om rho gam th dot.
Hypothesis Hsegs : ordinary_edges segs.
Hypothesis HG : piecewise q segs = Ok G.
Hypothesis Hg : piecewise_rd rw r segs = Ok g.
Hypothesis Hvec : length vec = ((length segs - 1) * n)%nat.

Lemma coefficients k i : (k < n)%nat -> (i < length segs - 1)%nat ->
  Rabs (collocate_rd rw ro dot n r segs (sqrtw_rd rw g) vec k i - collocate n q segs (sqrtw G) vec k i)
  <= (2 * INR k + 1) * (coefficient_error n u sg om gam * part_norm n vec i + 5 * (eta + th)).
Proof.
  destruct Hs as (A1 & A2 & A3 & A4 & A5 & (B1 & B2 & B3 & B4) & A7 & A8).
  apply (coefficient_near u eta e rw ro n q r sg om rho segs G g gam th dot vec A1 A2 A3 A4 A5); auto; lra.
Qed.

Lemma odd_sum m : sumn m (fun k => 2 * INR k + 1) = INR m * INR m.
Proof. induction m; [cbn; ring|]. cbn [sumn]. rewrite IHm, S_INR. ring. Qed.

Lemma functions gm sa sb i x : gknots gm = segs -> glen gm = n -> (i < length segs - 1)%nat -> knot gm i <= x <= knot gm (S i) ->
  Rabs (seg_fun gm (Col (collocate_rd rw ro dot n r segs (sqrtw_rd rw g) vec) sa) i x - seg_fun gm (Col (collocate n q segs (sqrtw G) vec) sb) i x)
  <= function_error n (coefficient_error n u sg om gam) (5 * (eta + th)) (knot gm (S i) - knot gm i) vec i.
Proof.
  intros Hk Hn Hi Hx. unfold seg_fun, function_error. rewrite Hn. cbn [cdat].
  assert (Pl : knot gm i < knot gm (S i)). { unfold knot. rewrite Hk. pose proof (e_gap segs Hsegs i Hi) as E. unfold gap in E. assert (0 < / 10 ^ 100) by (apply Rinv_0_lt_compat, pow_lt; lra). lra. }
  set (a := knot gm i) in *. set (b := knot gm (S i)) in *. set (z := (2 * x - a - b) / (b - a)).
  assert (Hz : -1 <= z <= 1). { unfold z. split; [apply Rle_div_r; lra|apply Rle_div_l; lra]. }
  rewrite <- Rmult_minus_distr_l, Rabs_mult, (Rabs_pos_eq (sqrt _)) by apply sqrt_pos. apply Rmult_le_compat_l; [apply sqrt_pos|].
  rewrite <- sumn_minus, <- odd_sum, <- sumn_scal_r. eapply Rle_trans; [apply sumn_abs|]. apply sumn_le. intros k Hk'.
  rewrite <- Rmult_minus_distr_r, Rabs_mult. pose proof (coefficients k i Hk' Hi) as C. pose proof (legP_le1 z Hz k) as P.
  eapply Rle_trans; [|exact C]. rewrite <- (Rmult_1_r (Rabs _)) at 2. apply Rmult_le_compat_l; [apply Rabs_pos|exact P].
Qed.
End Fun.

(** * The sets of polynomials *)
Lemma poly_init_rd_inv rd order nseg dat knots symm p : poly_init_rd rd order nseg dat knots symm = Ok p ->
  poly_init order nseg dat knots None symm = Ok (ideal p) /\ gdx (vgeom p) = map rd (diffs knots) /\ gknots (vgeom p) = knots /\
  glen (vgeom p) = order /\ gorder (vgeom p) = order /\ gnseg (vgeom p) = nseg /\ vcols (ideal p) = vcols p.
Proof.
  unfold poly_init_rd, poly_init. destruct (negb _); [discriminate|]. destruct (negb _); [discriminate|].
  destruct (match symm with None => _ | Some s => _ end) as [sy|]; [|discriminate]. cbn [bind]. intros [= <-]. cbn. auto 10.
Qed.

Lemma columns_len rw ro dot n r segs sq vecs : length (columns_rd rw ro dot n r segs sq vecs) = length vecs.
Proof. unfold columns_rd. rewrite map2_length, seq_length. apply Nat.min_id. Qed.
Lemma columns_at rw ro dot n r segs sq vecs l d : (l < length vecs)%nat ->
  nth l (columns_rd rw ro dot n r segs sq vecs) d = collocate_rd rw ro (dot l) n r segs sq (nth l vecs []).
Proof.
  intros Hl. unfold columns_rd. rewrite (map2_nth _ _ _ _ 0%nat [] d) by (rewrite ?seq_length; auto). rewrite seq_nth by auto. reflexivity.
Qed.
Lemma made_cols rw ro dot n r segs sq vecs p nseg : poly_init_rd ro n nseg (columns_rd rw ro dot n r segs sq vecs) segs None = Ok p ->
  length (vcols p) = length vecs /\ forall l, (l < length vecs)%nat -> nth l (vcols p) col0 = Col (collocate_rd rw ro (dot l) n r segs sq (nth l vecs [])) 0.
Proof.
  intros H. apply poly_init_rd_inv in H as (H & _ & _ & _ & _ & _ & E). apply poly_init_cols in H. rewrite E in H. rewrite H. split.
  - rewrite map_length. apply columns_len.
  - intros l Hl. rewrite (nth_map_in _ _ _ (fun _ _ => 0)) by (rewrite columns_len; auto). rewrite columns_at by auto. reflexivity.
Qed.

Lemma made_near u eta rd order nseg dat knots symm p : rounding u eta rd -> (0 < nseg)%nat -> StronglySorted Rlt knots ->
  poly_init_rd rd order nseg dat knots symm = Ok p -> geom_near u eta (vgeom p).
Proof.
  intros Hr Hn Hk H. pose proof (poly_init_rd_inv _ _ _ _ _ _ _ H) as (H' & D & K & L & O & N & _).
  apply (steps_near u eta rd); auto; [lia| |rewrite K; auto|rewrite K; auto]. rewrite K, N. unfold poly_init in H'. destruct (Nat.eqb_spec (length knots) (S nseg)); [auto|discriminate].
Qed.

Lemma forall2_at A B (P : A -> B -> Prop) xs ys l a b : Forall2 P xs ys -> (l < length xs)%nat -> P (nth l xs a) (nth l ys b).
Proof. intros F. revert l. induction F as [|x y xs ys F0 F IH]; intros l Hl; cbn [length] in Hl; [lia|]. destruct l; [assumption|]. cbn [nth]. apply IH. lia. Qed.

Lemma values u eta e rw ro n q r sg om rho gam th dot segs G g vecs old p l i x :
  (forall l, coefficient_setting u eta e rw ro n q r sg om rho gam th (dot l)) -> ordinary_edges segs -> piecewise q segs = Ok G -> piecewise_rd rw r segs = Ok g ->
  Forall (fun v => length v = ((length segs - 1) * n)%nat) vecs ->
  poly_init_rd ro n (length segs - 1) (columns_rd rw ro dot n r segs (sqrtw_rd rw g) vecs) segs None = Ok p ->
  (l < length vecs)%nat -> in_segment (vgeom p) i x -> fair_length u eta (vgeom p) i -> loss (vgeom p) i * u <= 1 ->
  exists c y, nth_error (vcols p) l = Some c /\ value_rd old ro p (Z.of_nat l) x = Ok y /\
    Rabs (y - seg_fun (vgeom p) (Col (collocate n q segs (sqrtw G) (nth l vecs [])) 0) i x) <=
    call_error u eta (vgeom p) c i +
    function_error n (coefficient_error n u sg om gam) (5 * (eta + th)) (knot (vgeom p) (S i) - knot (vgeom p) i) (nth l vecs []) i.
Proof.
  intros Hset Hsegs HG Hg Hv Hp Hl Hx Hf Hlo. pose proof (Hset l) as HS. pose proof HS as (A1 & A2 & A3 & A4 & _ & A6 & _).
  assert (Hu : 0 < u <= / 10000). { pose proof (u_small u eta e A1) as P. destruct A6 as (Q & _). lra. }
  assert (He : 0 <= eta) by apply A1. assert (Hn : (0 < n)%nat) by apply A4.
  pose proof (poly_init_rd_inv _ _ _ _ _ _ _ Hp) as (_ & _ & K & L & _ & N & _). destruct (made_cols _ _ _ _ _ _ _ _ _ _ Hp) as [ML MC].
  assert (Hm : (0 < length segs - 1)%nat) by (destruct Hsegs; lia).
  pose proof (made_near _ _ _ _ _ _ _ _ _ A3 Hm (proj2 (e_ok segs Hsegs)) Hp) as Hgn.
  destruct (vcall_near u eta ro old p x i A3 Hu He Hgn ltac:(lia) Hx Hf Hlo) as (ys & Ey & F).
  exists (nth l (vcols p) col0), (nth l ys 0). split; [apply nth_error_nth'; lia|].
  assert (Ly : length ys = length (vcols p)) by (clear - F; induction F; cbn; congruence).
  split.
  { apply value_entry. exists ys. split; [exact Ey|]. rewrite BasisPhys.pyindex_nat. apply nth_error_nth'. lia. }
  assert (B : Rabs (nth l ys 0 - seg_fun (vgeom p) (nth l (vcols p) col0) i x) <= call_error u eta (vgeom p) (nth l (vcols p) col0) i).
  { apply (forall2_at _ _ _ _ _ l col0 0 F). lia. }
  rewrite (MC l Hl) in B at 1. rewrite Forall_forall in Hv.
  pose proof (functions u eta e rw ro n q r sg om rho gam th (dot l) segs G g (nth l vecs []) HS Hsegs HG Hg (Hv _ (nth_In _ _ Hl)) (vgeom p) 0 0 i x K L) as FF.
  destruct Hx as (X1 & X2 & X3). specialize (FF ltac:(lia)).
  assert (Hx' : knot (vgeom p) i <= x <= knot (vgeom p) (S i)). { split; [exact X2|]. destruct X3 as [X3|[X3 ->]]; [lra|]. right. unfold gxmax, knot. rewrite X3. reflexivity. }
  specialize (FF Hx'). set (F1 := seg_fun _ _ i x) in B. set (F2 := seg_fun _ (Col (collocate n q segs (sqrtw G) (nth l vecs [])) 0) i x) in *. change (seg_fun (vgeom p) (Col (collocate_rd rw ro (dot l) n r segs (sqrtw_rd rw g) (nth l vecs [])) 0) i x) with F1 in FF.
  pose proof (Rabs_triang (nth l ys 0 - F1) (F1 - F2)) as T. replace (nth l ys 0 - F1 + (F1 - F2)) with (nth l ys 0 - F2) in T by ring. lra.
Qed.

(** * Inner products in any order *)
Lemma any_order u eta rd dot n : rounding u eta rd -> 0 <= u -> 0 <= eta -> INR n * u <= 1 / 2 ->
  (forall xs ys, length xs = length ys -> summed rd (map2 Rmult xs ys) (dot xs ys)) ->
  SSVEIEEE.inner_near n (2 * INR n * u) (4 * INR n * eta) dot.
Proof.
  intros Hr Hu He Hn Hd. pose proof (pos_INR n) as Pn. split; [apply Rmult_le_pos; lra|]. split; [apply Rmult_le_pos; lra|].
  intros xs ys L Ln.
  assert (E : forall (xs ys : list R), length xs = length ys -> lsum (map2 Rmult xs ys) = sumn (length xs) (fun j => nth j xs 0 * nth j ys 0) /\
    labs (map2 Rmult xs ys) = sumn (length xs) (fun j => Rabs (nth j xs 0) * Rabs (nth j ys 0)) /\ length (map2 Rmult xs ys) = length xs).
  { clear. induction xs as [|x xs IH]; intros [|y ys] L; try discriminate L; [cbn; auto|].
    injection L as L. destruct (IH ys L) as (I1 & I2 & I3). cbn [length]. rewrite !sumn_shift. cbn [map2 lsum labs fold_right nth length].
    unfold lsum in I1. unfold labs in I2. rewrite I1, I2, I3, Rabs_mult. auto. }
  destruct (E xs ys L) as (E1 & E2 & E3). rewrite <- E1, <- E2. apply (summed_small u eta rd); auto. lia.
Qed.

Definition chained_dot (rd : R -> R) (xs ys : list R) : R := fold_right (fun x s => rd (x + s)) 0 (map2 Rmult xs ys).
Lemma chained_summed rd xs ys : summed rd (map2 Rmult xs ys) (chained_dot rd xs ys).
Proof. unfold chained_dot. induction (map2 Rmult xs ys) as [|x l IH]; cbn; [constructor|]. constructor. exact IH. Qed.

(** * An example in doubles: the rule of one point on two segments *)
Definition case_vec : list R := [3 / 5; - 4 / 5].
Lemma case_setting : forall l : nat, coefficient_setting (/ 2 ^ 53) eta64 (/ 2 ^ 53) rnd64 rnd64 1 gauss1 gauss1 0 0 0 (2 * INR 1 * / 2 ^ 53) (4 * INR 1 * eta64)
  ((fun _ _ _ => chained_dot rnd64) l).
Proof.
  intros l0. destruct small64 as (S1 & S2 & S3). pose proof rounding_double as Rd.
  assert (P0 : 0 <= / 2 ^ 53) by (left; apply Rinv_0_lt_compat, pow_lt; lra).
  assert (T : / 10 ^ 10 <= / 100000) by (apply Rinv_le_contravar; lra).
  assert (He : 0 <= eta64) by apply S2.
  set (u := / 2 ^ 53) in *. clearbody u.
  split; [exact S2|]. split; [exact Rd|]. split; [exact Rd|]. split; [exact gauss1_ordinary|]. split; [exact (rule_near_refl 1 gauss1 gauss1_ordinary)|]. split; [exact S1|]. split.
  - intros k i. apply (any_order u eta64 rnd64); auto; [cbn [INR]; lra|]. intros. apply chained_summed.
  - unfold coefficient_error. cbn [INR]. lra.
Qed.

Lemma case_values : exists G g p, piecewise gauss1 [-1; 0; 1] = Ok G /\ piecewise_rd rnd64 gauss1 [-1; 0; 1] = Ok g /\
  poly_init_rd rnd64 1 2 (columns_rd rnd64 rnd64 (fun _ _ _ => chained_dot rnd64) 1 gauss1 [-1; 0; 1] (sqrtw_rd rnd64 g) [case_vec]) [-1; 0; 1] None = Ok p /\
  in_segment (vgeom p) 1 (/ 2) /\ fair_length (/ 2 ^ 53) eta64 (vgeom p) 1 /\ loss (vgeom p) 1 * / 2 ^ 53 <= 1 /\
  seg_fun (vgeom p) (Col (collocate 1 gauss1 [-1; 0; 1] (sqrtw G) case_vec) 0) 1 (/ 2) = - 4 / 5.
Proof.
  destruct small64 as (S1 & S2 & S3). pose proof rounding_double as Rd.
  destruct (piecewise_round _ _ _ _ S2 Rd 1 gauss1 gauss1 0 0 0 [-1; 0; 1] _ gauss1_ordinary (rule_near_refl 1 gauss1 gauss1_ordinary)
    ltac:(lra) ltac:(lra) ltac:(lra) edges_full piecewise_full) as (g & Hg & _ & _).
  eexists. exists g. eexists. split; [exact piecewise_full|]. split; [exact Hg|]. split.
  { unfold poly_init_rd, poly_init. cbn [length Nat.eqb negb init removelast tl map2 forallb].
    rewrite (proj2 (Rleb_true (-1) 0)) by lra. rewrite (proj2 (Rleb_true 0 1)) by lra. cbn [andb negb bind vgeom gorder glen gnseg gknots gdx vcols]. reflexivity. }
  cbn [vgeom]. split.
  { split; [cbn; lia|]. unfold knot, gxmax. cbn [gknots nth gnseg last]. split; [lra|]. left. lra. }
  split.
  { apply (fair_double). unfold knot. cbn [gknots nth]. split.
    - replace (1 - 0) with (/ 1) by field. apply Rinv_le_contravar; [lra|]. apply pow_R1_Rle. lra.
    - replace (1 - 0) with 1 by ring. apply pow_R1_Rle. lra. }
  split.
  { unfold loss, knot. cbn [gknots nth glen INR]. rewrite Rabs_R0, Rabs_R1, Rmax_right by lra.
    assert (T : / 10 ^ 10 <= / 100000) by (apply Rinv_le_contravar; lra). replace (1 / (1 - 0)) with 1 by field. set (u := / 2 ^ 53) in *. clearbody u. lra. }
  unfold seg_fun, knot. cbn [gknots nth glen sumn cdat]. unfold collocate, case_vec, sqrtw. cbn [map map2 Gauss.rw nth seq rx Nat.mul Nat.add].
  rewrite !sqrt_1. unfold legendre_collocation. cbn [nth rx Gauss.rw gauss1 INR]. rewrite !legP_0.
  replace (/ 2 * (1 - 0)) with (/ 2) by field. replace (2 / (1 - 0)) with 2 by field.
  assert (E : sqrt 2 * sqrt (/ 2) = 1). { rewrite <- sqrt_mult by lra. replace (2 * / 2) with 1 by field. apply sqrt_1. }
  transitivity (- 4 / 5 * (sqrt 2 * sqrt (/ 2))); [|rewrite E; field].
  cbn [sumn]. rewrite legP_0. field.
Qed.
