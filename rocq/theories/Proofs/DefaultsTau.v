From Coq Require Import Reals Lra.
From Coquelicot Require Import Coquelicot.
From Coq Require Import List ZArith Bool Lia Permutation Sorted Arith.
From Flocq Require Import Core.
From Verif.Model Require Import Base Num Roots Poly PolyIEEE IEEE SVE Basis DefaultsIEEE.
From Verif.Spec Require Import SRoots SPoly SPolyIEEE SKernelIEEE SDefaultsIEEE.
From Verif.Proofs Require Import BaseFacts RootsFacts RootsCont IEEEFacts RootsIEEE PolyRound KernelRoundCall DefaultsRound DefaultsRoots.
Import ListNotations.
Open Scope R_scope.

Lemma sorted_opp l : StronglySorted Rle l -> StronglySorted Rle (map Ropp (rev l)).
Proof.
  induction 1 as [|x l S IH F]; cbn; [constructor|]. rewrite map_app. apply sorted_app; [exact IH|repeat constructor|].
  intros a b Ha [<-|[]]. apply in_map_iff in Ha as (c & <- & Hc). apply in_rev in Hc. rewrite Forall_forall in F. specialize (F c Hc). lra.
Qed.
Lemma opp_opp l : map Ropp (map Ropp l) = l.
Proof. rewrite map_map. rewrite <- (map_id l) at 2. apply map_ext. intros a. lra. Qed.

Section Roots.
Context (old : bool) (nz : R -> bool) (p : spoly) (Hp : searchable u64 eta64 p).
Notation g := (sgeom p).
Notation F := (value_at old rnd64 p).
Notation declared := (csym (scol p)).

Lemma mirror_opp l : Forall is_double l -> map (fun r => rnd64 (rnd64 (gxmax g + gxmin g) - r)) (rev l) = map Ropp (rev l).
Proof.
  intros D. destruct (xmid_zero _ _ p Hp) as (_ & Z). apply map_ext_in. intros r Hr. apply in_rev in Hr. rewrite Forall_forall in D. rewrite Z, Rminus_0_l. apply rnd64_id, double_opp, D, Hr.
Qed.

Notation reported := (reports_sign_changes old rnd64 p).

Lemma knots_adjacent i : (i < gnseg g)%nat -> (declared = 0 \/ 0 <= knot g i) -> adjacent (roots_knots_rd rnd64 p) (knot g i) (knot g (S i)).
Proof.
  intros Hi H. destruct (knots_ok _ _ p Hp) as (K1 & K2 & K3 & K4 & K5 & K6). pose proof Hp as ((N & L & S & _) & E1 & E2 & _).
  assert (Fr : from p <= knot g i). { unfold from. destruct (Reqb declared 0) eqn:E. - apply (knots_range _ _ p Hp). apply nth_In. lia. - apply Reqb_false in E. destruct H; [congruence|assumption]. }
  assert (Lt : knot g i < knot g (Datatypes.S i)) by (apply sorted_nth_lt; [exact S|lia]).
  assert (I1 : In (knot g i) (roots_knots_rd rnd64 p)) by (apply K6; [apply nth_In; lia|exact Fr]).
  assert (I2 : In (knot g (Datatypes.S i)) (roots_knots_rd rnd64 p)) by (apply K6; [apply nth_In; lia|lra]).
  apply in_split in I1 as (l1 & l2 & E). rewrite E in I2, K1. apply StronglySorted_app_inv in K1 as (_ & S2 & S3). apply StronglySorted_inv in S2 as (S2 & F2).
  destruct l2 as [|b l2].
  { exfalso. apply in_app_or in I2 as [I2|[I2|[]]]; [|lra]. specialize (S3 _ _ I2 (or_introl eq_refl)). lra. }
  exists l1, l2. rewrite E. do 3 f_equal. apply Rle_antisym.
  - apply in_app_or in I2 as [I2|[I2|[I2|I2]]]; try lra. + specialize (S3 _ _ I2 (or_introl eq_refl)). lra. + apply StronglySorted_inv in S2 as (_ & F3). rewrite Forall_forall in F3. apply Rlt_le, F3, I2.
  - assert (H1 : knot g i < b) by (inversion F2; assumption). destruct (Rle_or_lt (knot g (Datatypes.S i)) b) as [B|B]; [exact B|]. exfalso.
    assert (Ib : In b (roots_knots_rd rnd64 p)) by (rewrite E; apply in_or_app; right; right; left; reflexivity).
    assert (Kb : In b (gknots g)).
    { clear -Ib H1 Fr Hp. assert (B0 : from p < b) by lra. revert Ib. unfold roots_knots_rd. cbv zeta. unfold from in B0. destruct (xmid_zero _ _ p Hp) as (Z & _). rewrite Z. destruct (Reqb declared 0); [auto|]. destruct (Reqb _ 0).
      - intros Ib. rewrite <- (firstn_skipn (gnseg g / 2) (gknots g)). apply in_or_app. right. exact Ib.
      - intros [Ib|Ib]; [lra|]. apply filter_In in Ib. tauto. }
    destruct (In_nth _ _ 0 Kb) as (j & Hj & Ej). unfold knot in *. destruct (lt_eq_lt_dec j i) as [[Q|Q]|Q].
    + pose proof (sorted_nth_lt (gknots g) j i S ltac:(lia)). lra.
    + subst j. lra.
    + destruct (Nat.eq_dec j (Datatypes.S i)) as [->|Q2]; [lra|]. pose proof (sorted_nth_lt (gknots g) (Datatypes.S i) j S ltac:(lia)). lra.
Qed.

Lemma roots_ok : exists rs, ends_with (fun fuel => roots_rd old rnd64 nz fuel p 2) rs /\
  StronglySorted Rle rs /\ Forall (fun x => is_double x /\ -1 <= x <= 1) rs /\
  (declared = 1 \/ declared = -1 -> map Ropp (rev rs) = rs) /\ (declared = -1 -> In 0 rs) /\
  reported rs /\
  (accurate u64 eta64 g -> forall r, In r rs ->
     zero_near u64 eta64 eps64 p r \/ ((declared = 1 \/ declared = -1) /\ zero_near u64 eta64 eps64 p (- r)) \/ (declared = -1 /\ r = 0)).
Proof.
  destruct (search old nz p Hp) as (rs & (n & R0) & R1 & R2 & R3 & R4 & R5 & R6). destruct (xmid_zero _ _ p Hp) as (Z & _).
  assert (Fr : -1 <= from p) by (unfold from; destruct (Reqb _ _); lra).
  assert (Hb : Forall (fun x => is_double x /\ -1 <= x <= 1) rs). { apply Forall_forall. intros x Hx. rewrite Forall_forall in R2, R3. specialize (R3 x Hx). split; [auto|lra]. }
  assert (Run : forall fuel, (n <= fuel)%nat -> roots_rd old rnd64 nz fuel p 2 = let mirror := fun l => map (fun r => rnd64 (rnd64 (gxmax g + gxmin g) - r)) (rev l) in
      if Reqb declared 1 then Some (mirror rs ++ rs)
      else if Reqb declared (-1) then
        let rs' := match rs with [] => rs | r :: rest => if Reqb r (xmid_rd rnd64 g) || Rltb (rnd64 (F (xmid_rd rnd64 g) * value_at old rnd64 (sderiv_rd rnd64 p) (xmid_rd rnd64 g))) 0 then rest else rs end in
        Some (mirror rs' ++ xmid_rd rnd64 g :: rs')
      else Some rs) by (intros fuel Hf; unfold roots_rd; cbv zeta; rewrite (R0 fuel Hf); reflexivity).
  assert (Rep : forall rs', (forall r, In r rs -> declared <> -1 -> In r rs') -> reported rs').
  { intros rs' Inc. split.
    - intros i Hi H C. destruct (R5 (knot g i) (knot g (S i))) as (r & Hr & B); [apply knots_adjacent; tauto|exact C|]. exists r. split; [apply Inc; [exact Hr|destruct H as [->|H]; [lra|tauto]]|exact B].
    - intros i Hi H C. assert (Nm : declared <> -1) by (destruct H as [->|H]; [lra|tauto]). apply Inc; [|exact Nm]. apply R4; [|exact C].
      destruct (grid_ok _ _ p Hp) as (_ & _ & _ & _ & _ & G6 & _). pose proof Hp as ((_ & L & _) & _). assert (In (knot g i) (gknots g)) by (apply nth_In; lia). apply G6; [assumption|].
      unfold from. destruct (Reqb declared 0) eqn:E; [apply (knots_range _ _ p Hp); assumption|]. apply Reqb_false in E. destruct H; tauto. }
  assert (Half : declared <> 0 -> Forall (fun x => is_double x /\ 0 <= x <= 1) rs).
  { intros Nd. apply Forall_forall. intros x Hx. rewrite Forall_forall in R2, R3. specialize (R3 x Hx). split; [auto|]. unfold from in R3. apply Reqb_false in Nd. rewrite Nd in R3. lra. }
  assert (Mir : forall l, (forall r, In r l -> is_double r /\ 0 <= r <= 1) -> forall x, In x (map Ropp (rev l)) -> is_double x /\ -1 <= x <= 0 /\ In (- x) l).
  { intros l Hl x Hx. apply in_map_iff in Hx as (r & <- & Hr). apply in_rev in Hr. destruct (Hl r Hr). split; [apply double_opp; assumption|]. split; [lra|]. rewrite Ropp_involutive. exact Hr. }
  destruct (Req_dec declared 1) as [E1|E1].
  { assert (D : Forall (fun x => is_double x /\ 0 <= x <= 1) rs) by (apply Half; lra). rewrite Forall_forall in D. pose proof (Mir rs D) as M.
    exists (map Ropp (rev rs) ++ rs). split; [exists n; intros fuel Hf; rewrite (Run fuel Hf); cbv zeta; rewrite (proj2 (Reqb_true _ _) E1); rewrite (mirror_opp rs R2); reflexivity|].
    split; [apply sorted_app; [apply sorted_opp; exact R1|exact R1|]; intros x y Hx Hy; specialize (M x Hx); specialize (D y Hy); lra|].
    split; [apply Forall_app; split; [|exact Hb]; apply Forall_forall; intros x Hx; specialize (M x Hx); split; [tauto|lra]|].
    split; [intros _; rewrite rev_app_distr, map_app, <- map_rev, rev_involutive, opp_opp; reflexivity|]. split; [intros E; lra|].
    split; [apply Rep; intros r Hr _; apply in_or_app; right; exact Hr|]. intros A r Hr. apply in_app_or in Hr as [Hr|Hr]; [|left; apply R6; assumption]. right; left. split; [left; exact E1|]. apply R6; [exact A|]. apply M. exact Hr. }
  destruct (Req_dec declared (-1)) as [E2|E2].
  { assert (D : Forall (fun x => is_double x /\ 0 <= x <= 1) rs) by (apply Half; lra). rewrite Forall_forall in D.
    set (rs' := match rs with [] => rs | r :: rest => if Reqb r (xmid_rd rnd64 g) || Rltb (rnd64 (F (xmid_rd rnd64 g) * value_at old rnd64 (sderiv_rd rnd64 p) (xmid_rd rnd64 g))) 0 then rest else rs end) in *.
    assert (Sub : (forall r, In r rs' -> In r rs) /\ StronglySorted Rle rs').
    { unfold rs'. destruct rs as [|r rest]; [split; [auto|exact R1]|]. destruct (_ || _); [|split; [auto|exact R1]]. split; [intros a Ha; right; exact Ha|]. apply StronglySorted_inv in R1. tauto. }
    destruct Sub as (Sub & Srt). assert (D' : forall r, In r rs' -> is_double r /\ 0 <= r <= 1) by (intros r Hr; apply D, Sub, Hr). pose proof (Mir rs' D') as M.
    assert (Dd : Forall is_double rs') by (apply Forall_forall; intros r Hr; apply D'; exact Hr).
    exists (map Ropp (rev rs') ++ 0 :: rs'). split.
    { exists n. intros fuel Hf. rewrite (Run fuel Hf). cbv zeta. rewrite (proj2 (Reqb_false _ _) E1), (proj2 (Reqb_true _ _) E2). fold rs'. rewrite (mirror_opp rs' Dd), Z. reflexivity. }
    split; [apply sorted_app; [apply sorted_opp; exact Srt|constructor; [exact Srt|apply Forall_forall; intros r Hr; apply D'; exact Hr]|]; intros x y Hx [<-|Hy]; specialize (M x Hx); [lra|specialize (D' y Hy); lra]|].
    split; [apply Forall_app; split; [apply Forall_forall; intros x Hx; specialize (M x Hx); split; [tauto|lra]|]; constructor; [split; [apply double_0|lra]|apply Forall_forall; intros r Hr; specialize (D' r Hr); split; [tauto|lra]]|].
    split; [intros _; rewrite rev_app_distr; cbn [rev]; rewrite !map_app, <- map_rev, rev_involutive, opp_opp; cbn [map]; rewrite Ropp_0, <- app_assoc; reflexivity|].
    split; [intros _; apply in_or_app; right; left; reflexivity|]. split; [apply Rep; intros r Hr Q; congruence|].
    intros A r Hr. apply in_app_or in Hr as [Hr|[<-|Hr]]; [| |left; apply R6; auto].
    - right; left. split; [right; exact E2|]. apply R6; [exact A|]. apply Sub, M, Hr.
    - right; right. auto. }
  exists rs. split; [exists n; intros fuel Hf; rewrite (Run fuel Hf); cbv zeta; rewrite (proj2 (Reqb_false _ _) E1), (proj2 (Reqb_false _ _) E2); reflexivity|].
  split; [exact R1|]. split; [exact Hb|]. split; [tauto|]. split; [tauto|]. split; [apply Rep; auto|]. intros A r Hr. left. apply R6; assumption.
Qed.
End Roots.

Lemma deriv_searchable u eta p : searchable u eta p -> searchable u eta (sderiv_rd rnd64 p).
Proof.
  intros (A & B & C & D & E). split; [exact A|]. split; [exact B|]. split; [exact C|]. split; [exact D|]. cbn. unfold legder1_len. lia.
Qed.
Lemma deriv_accurate p : searchable u64 eta64 p -> accurate u64 eta64 (sgeom p) -> accurate u64 eta64 (sgeom (sderiv_rd rnd64 p)).
Proof.
  intros (G & _ & _ & _ & E) A i Hi. cbn in Hi. destruct (A i Hi) as (A1 & A2). split; [exact A1|]. eapply Rle_trans; [|exact A2]. apply Rmult_le_compat_r; [apply Rlt_le, u64_range|].
  unfold loss. cbn [sderiv_rd sgeom gderiv glen]. apply Rmult_le_compat_r.
  - assert (0 < knot (sgeom p) (S i) - knot (sgeom p) i). { destruct G as (_ & L & S & _). assert (knot (sgeom p) i < knot (sgeom p) (Datatypes.S i)) by (apply sorted_nth_lt; [exact S|lia]). lra. }
    assert (0 <= Rmax (Rabs (knot (sgeom p) i)) (Rabs (knot (sgeom p) (S i))) / (knot (sgeom p) (S i) - knot (sgeom p) i)).
    { apply Rmult_le_pos; [eapply Rle_trans; [apply Rabs_pos|apply Rmax_l]|apply Rlt_le, Rinv_0_lt_compat; assumption]. }
    cbn [knot gknots]. unfold knot in *. cbn. lra.
  - apply Rmult_le_compat_l; [lra|]. cbn. unfold legder1_len. assert (INR (Nat.max (glen (sgeom p) - 1) 1) <= INR (glen (sgeom p))) by (apply le_INR; lia).
    apply Rmult_le_compat; try apply pos_INR; assumption.
Qed.

Lemma rnd64_odd x : rnd64 (- x) = - rnd64 x.
Proof. apply round_NE_opp. Qed.

Section Points.
Context (old : bool) (nz : R -> bool) (u : vpoly) (n : nat) (p : spoly).
Hypothesis Hu : geom_near u64 eta64 (vgeom u) /\ gxmin (vgeom u) = -1 /\ gxmax (vgeom u) = 1 /\ Forall is_double (gknots (vgeom u)) /\ (0 < glen (vgeom u))%nat.
Hypothesis Hs : source_rd rnd64 u n p.
Notation run := (fun fuel => default_points_rd old rnd64 nz fuel u (Z.of_nat n)).
Notation declared := (csym (scol p)).

Lemma source_searchable : searchable u64 eta64 p /\ (accurate u64 eta64 (vgeom u) -> accurate u64 eta64 (sgeom p)).
Proof.
  assert (B : forall l q, getitem u l = Ok q -> searchable u64 eta64 q /\ (accurate u64 eta64 (vgeom u) -> accurate u64 eta64 (sgeom q))).
  { intros l q E. unfold getitem in E. destruct (pyindex (vcols u) l); [|discriminate]. injection E as <-. split; [exact Hu|auto]. }
  unfold source_rd in Hs. destruct (n <? length (vcols u))%nat; [apply (B _ _ Hs)|]. destruct Hs as (q & E & ->). destruct (B _ _ E) as (B1 & B2).
  split; [apply deriv_searchable; exact B1|]. intros A. apply deriv_accurate; auto.
Qed.

Lemma points_ok : exists x0, ends_with run (Ok (x0, negb (Z.of_nat (length x0) =? Z.of_nat n)%Z)) /\
  StronglySorted Rle x0 /\ Forall (fun x => is_double x /\ -1 <= x <= 1) x0 /\
  (declared = 1 \/ declared = -1 -> map Ropp (rev x0) = x0) /\
  (declared = -1 -> In 0 x0) /\ reports_sign_changes old rnd64 p x0 /\
  (accurate u64 eta64 (vgeom u) -> forall x, In x (interior (n <? length (vcols u))%nat x0) ->
     zero_near u64 eta64 eps64 p x \/ ((declared = 1 \/ declared = -1) /\ zero_near u64 eta64 eps64 p (- x)) \/ (declared = -1 /\ x = 0)).
Proof.
  destruct source_searchable as (Sp & Ac). destruct (roots_ok old nz p Sp) as (rs & (N & R0) & R1 & R2 & R3 & R4 & (R5a & R5b) & R6).
  destruct Hu as (_ & X1 & X2 & _).
  assert (Pre : forall fuel, default_points_rd old rnd64 nz fuel u (Z.of_nat n) =
    (let finish x0 := Ok (x0, negb (Z.of_nat (length x0) =? Z.of_nat n)%Z) in
     if (n <? length (vcols u))%nat then match roots_rd old rnd64 nz fuel p 2 with None => None | Some x0 => Some (finish x0) end
     else match roots_rd old rnd64 nz fuel p 2 with None => None | Some maxima =>
       Some (finish (map (fun m => rnd64 (/ 2 * rnd64 (m + -1))) (firstn 1 maxima) ++ maxima ++ map (fun m => rnd64 (/ 2 * rnd64 (m + 1))) (firstn 1 (rev maxima)))) end)).
  { intros fuel. unfold default_points_rd. rewrite X1, X2. rewrite (proj2 (Reqb_true (-1) (-1)) eq_refl), (proj2 (Reqb_true 1 1) eq_refl). cbn [negb orb]. cbv zeta.
    assert (B : (Z.of_nat n <? Z.of_nat (length (vcols u)))%Z = (n <? length (vcols u))%nat).
    { destruct (Nat.ltb_spec n (length (vcols u))); [apply Z.ltb_lt|apply Z.ltb_ge]; lia. }
    rewrite B. unfold source_rd in Hs. destruct (n <? length (vcols u))%nat; [rewrite Hs; reflexivity|]. destruct Hs as (q & -> & ->). reflexivity. }
  destruct (n <? length (vcols u))%nat eqn:Many.
  { exists rs. split; [exists N; intros fuel Hf; rewrite Pre, (R0 fuel Hf); reflexivity|]. split; [exact R1|]. split; [exact R2|]. split; [exact R3|]. split; [exact R4|]. split; [split; assumption|]. intros A x Hx. apply R6; [apply Ac; exact A|exact Hx]. }
  destruct rs as [|a rs].
  { exists []. split; [exists N; intros fuel Hf; rewrite Pre, (R0 fuel Hf); reflexivity|]. split; [constructor|]. split; [constructor|]. split; [auto|]. split; [exact R4|]. split; [split; assumption|]. intros _ x []. }
  assert (E : exists l z, a :: rs = l ++ [z]) by (destruct (exists_last (l := a :: rs) ltac:(discriminate)) as (l & z & E); exists l, z; exact E). destruct E as (l & z & E).
  assert (Rz : firstn 1 (rev (a :: rs)) = [z]) by (rewrite E, rev_app_distr; reflexivity).
  set (lo := rnd64 (/ 2 * rnd64 (a + -1))). set (hi := rnd64 (/ 2 * rnd64 (z + 1))).
  pose proof R2 as R2'. rewrite Forall_forall in R2'. assert (Iz : In z (a :: rs)) by (rewrite E; apply in_or_app; right; left; reflexivity).
  destruct (R2' a (or_introl eq_refl)) as (Da & Ba). destruct (R2' z Iz) as (Dz & Bz).
  assert (Dm : is_double (-1)) by (apply double_opp, double_one).
  assert (Lo : -1 <= lo <= a) by (unfold lo; rewrite Rplus_comm; apply mid64_range; [exact Dm|exact Da|lra]).
  assert (Hi : z <= hi <= 1) by (unfold hi; apply mid64_range; [exact Dz|apply double_one|lra]).
  assert (Ge : forall x, In x (a :: rs) -> a <= x <= z).
  { intros x Hx. split.
    - destruct Hx as [<-|Hx]; [lra|]. apply StronglySorted_inv in R1 as (_ & F). rewrite Forall_forall in F. apply F. exact Hx.
    - rewrite E in Hx, R1. apply StronglySorted_app_inv in R1 as (_ & _ & S). apply in_app_or in Hx as [Hx|[<-|[]]]; [|lra]. apply S; [exact Hx|left; reflexivity]. }
  exists (lo :: (a :: rs) ++ [hi]). split; [exists N; intros fuel Hf; rewrite Pre, (R0 fuel Hf); rewrite Rz; reflexivity|].
  split.
  { constructor.
    - apply sorted_app; [exact R1|repeat constructor|]. intros x y Hx [<-|[]]. specialize (Ge x Hx). lra.
    - apply Forall_app. split; [apply Forall_forall; intros x Hx; specialize (Ge x Hx); lra|constructor; [|constructor]]. specialize (Ge a (or_introl eq_refl)). lra. }
  split; [constructor; [split; [apply rnd64_double|lra]|]; apply Forall_app; split; [exact R2|constructor; [split; [apply rnd64_double|lra]|constructor]]|].
  split.
  { intros P. specialize (R3 P). 
    assert (Za : z = - a). { rewrite E in R3 at 2. change (rev (a :: rs)) with (rev rs ++ [a]) in R3. rewrite map_app in R3. apply app_inj_tail in R3 as (_ & R3). symmetry. exact R3. }
    assert (Hl : hi = - lo). { unfold hi, lo. rewrite Za. replace (- a + 1) with (- (a + -1)) by ring. rewrite rnd64_odd. replace (/ 2 * - rnd64 (a + -1)) with (- (/ 2 * rnd64 (a + -1))) by ring. apply rnd64_odd. }
    assert (Rv : rev (lo :: (a :: rs) ++ [hi]) = hi :: rev (a :: rs) ++ [lo]) by (change (lo :: (a :: rs) ++ [hi]) with ([lo] ++ (a :: rs) ++ [hi]); rewrite !rev_app_distr; reflexivity).
    rewrite Rv. cbn [map]. rewrite map_app, R3. cbn [map]. rewrite Hl, Ropp_involutive. reflexivity. }
  split; [intros Q; right; apply in_or_app; left; apply R4; exact Q|].
  split; [split; [intros i H1 H2 H3; destruct (R5a i H1 H2 H3) as (r & Hr & Br); exists r; split; [right; apply in_or_app; left; exact Hr|exact Br]|intros i H1 H2 H3; right; apply in_or_app; left; apply R5b; assumption]|].
  intros A x Hx. unfold interior in Hx. cbn [tl] in Hx. rewrite removelast_last in Hx. apply R6; [apply Ac; exact A|exact Hx].
Qed.
End Points.
