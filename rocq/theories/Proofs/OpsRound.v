(** Slicing and rescaling bases in rounded arithmetic (C101). *)
From Coq Require Import String ZArith Arith Bool Reals Lra Lia.
From Coquelicot Require Import Coquelicot.
From Coq Require Import List Sorting.Sorted.
From Verif.Model Require Import Base Util IEEE Num Poly FT FTIEEE SVE Basis BasisIEEE OpsIEEE.
From Verif.Spec Require Import SPoly SFT SSVE SBasis SKernelIEEE SPolyIEEE SFTIEEE SBasisIEEE SOpsIEEE.
From Verif.Proofs Require Import BaseFacts UtilFacts SumFacts PPolyFacts SVEFacts FTCall FTProps BasisFacts BasisInit BasisOps BasisRoundGeom BasisRound BasisRoundProps BasisRoundMore.
Import ListNotations.
Open Scope R_scope.
Notation length := List.length.

(** * Prefixes of transforms *)
Lemma firstn_seq_min m s n : firstn m (seq s n) = seq s (Nat.min m n).
Proof. revert s n. induction m; intros s [|n]; cbn; auto. f_equal. apply IHm. Qed.
Lemma indexed_firstn {A} m (l : list A) : combine (seq 0 (length (firstn m l))) (firstn m l) = firstn m (combine (seq 0 (length l)) l).
Proof. rewrite combine_firstn, firstn_seq_min, firstn_length. reflexivity. Qed.

Lemma ft_call_prefix rd F model f1 f2 m ns : fgeom f2 = fgeom f1 -> fcols f2 = firstn m (fcols f1) -> ffreq f2 = ffreq f1 -> fasymp f2 = fasymp f1 ->
  glen (fgeom f1) = gorder (fgeom f1) ->
  ft_call_rd rd F model f2 ns = (do M <- ft_call_rd rd F model f1 ns; Ok (firstn m M)).
Proof.
  intros E1 E2 E3 E4 E5. unfold ft_call_rd. rewrite E1, E2, E3. destruct (check_reduced_matsubara _ _) as [ms|]; [|reflexivity]. cbn [bind]. unfold unl_inner_rd. rewrite E5.
  destruct (Nat.eqb_spec (gorder (fgeom f1) * gnseg (fgeom f1)) 0) as [Z|N]; [reflexivity|]. cbn [orb].
  assert (D : forall k, ((gorder (fgeom f1) * gnseg (fgeom f1) * k) mod (gorder (fgeom f1) * gnseg (fgeom f1)) = 0)%nat) by (intros k; rewrite Nat.mul_comm; apply Nat.mod_mul, N).
  assert (Q : forall k, ((gorder (fgeom f1) * gnseg (fgeom f1) * k) / (gorder (fgeom f1) * gnseg (fgeom f1)) = k)%nat) by (intros k; rewrite Nat.mul_comm; apply Nat.div_mul, N).
  rewrite !D, !Q, !Nat.eqb_refl. cbn [negb bind]. f_equal.
  set (h := fun lc : nat * col => _). rewrite (indexed_firstn m (fcols f1)). set (X := combine (seq 0 (length (fcols f1))) (fcols f1)). rewrite <- (firstn_map h m X), (indexed_firstn m (map h X)).
  rewrite firstn_map. apply map_ext. intros [l row]. apply map_ext. intros [k v]. unfold use_asymp. rewrite E4. reflexivity.
Qed.

(** * Acceptance of scaled polynomials does not depend on their number *)
Lemma rescaled_any rd T' rs n m p q : rescaled_rd rd (take n p) (fun x => rd (T' * rs x)) T' = Ok q ->
  rescaled_rd rd (take m p) (fun x => rd (T' * rs x)) T' = Ok (VPoly (moved_geom rd T' rs p) (firstn m (vcols p))).
Proof.
  intros H. unfold rescaled_rd, poly_given_rd in *. cbn [take vgeom vcols] in *. rewrite !map_length in *. rewrite Nat.eqb_refl in *. cbn [negb] in *.
  destruct (negb (Nat.eqb _ _)); [discriminate|]. destruct (negb (forallb _ _)); [discriminate|]. destruct (negb (_ && _)); [discriminate|].
  rewrite map2_cols. reflexivity.
Qed.

Lemma sorted_firstn k l : nonincreasing l -> nonincreasing (firstn k l).
Proof.
  unfold nonincreasing. intros H. revert k. induction H as [|a l Hl IH Ha]; intros [|k]; cbn [firstn]; constructor; auto. rewrite Forall_forall in *. intros x Hx. apply Ha.
  rewrite <- (firstn_skipn k l). apply in_app_iff. auto.
Qed.

Lemma nonincreasing_nth l i j : nonincreasing l -> (i <= j)%nat -> (j < length l)%nat -> nth j l 0 <= nth i l 0.
Proof.
  unfold nonincreasing. intros H. revert i j. induction H as [|a l Hl IH Ha]; intros i j Hij Hj; [cbn in Hj; lia|]. destruct j as [|j]; [destruct i; [lra|lia]|]. destruct i as [|i]; cbn [nth length] in *.
  - rewrite Forall_forall in Ha. apply Ha, nth_In. lia.
  - apply IH; lia.
Qed.

Section Ops.
Variables (u eta : R) (rd : R -> R) (pw : R -> Z -> R) (compute : kern -> option R -> res sve_result).
Hypothesis Hrd : rounding u eta rd.
Notation built_rd := (built_rd u eta rd pw compute).
Notation init_rd := (basis_init_rd rd pw compute).

Definition u_accepted (r : sve_result) (beta : R) : Prop :=
  forall n, rescaled_rd rd (take n (su r)) (fun x => rd (rd (beta / 2) * rd (x + 1))) (rd (beta / 2)) = Ok (VPoly (u_moved rd beta r) (firstn n (vcols (su r)))).
Definition v_accepted (r : sve_result) (wmax : R) : Prop :=
  forall n, rescaled_rd rd (take n (sv r)) (fun y => rd (wmax * y)) wmax = Ok (VPoly (v_moved rd wmax r) (firstn n (vcols (sv r)))).

Lemma lam_close_rd_refl l : lam_close_rd rd l l = true.
Proof.
  unfold lam_close_rd. rewrite Rminus_eq_0, (rd_zero _ _ _ Hrd), Rabs_R0. apply Rleb_true. apply (proj1 (proj2 Hrd)). rewrite Rplus_0_l. apply (proj1 (proj2 Hrd)).
  apply Rmult_le_pos; [apply (proj1 (proj2 Hrd)); lra|apply Rabs_pos].
Qed.
Lemma kernel_again_rd st lam ker k : get_kernel_rd rd st lam ker = Ok k -> get_kernel_rd rd st lam (Some k) = Ok k.
Proof.
  unfold get_kernel_rd. destruct (negb (stat_in st)); [discriminate|]. destruct ker as [k'|].
  - destruct (klam k') as [l|] eqn:E; [destruct (lam_close_rd rd l lam) eqn:C; [|discriminate]|]; intros [= <-]; rewrite E; [rewrite C|]; reflexivity.
  - intros [= <-]. cbn [logistic klam]. rewrite lam_close_rd_refl. reflexivity.
Qed.

(** Everything there is to know about a basis. *)
Lemma built_full b : built_rd b -> exists lam q f f',
  0 < bbeta b /\ 0 < bwmax b /\ expansion_near u eta (bsve b) /\
  get_kernel_rd rd (bstat b) (rd (bbeta b * bwmax b)) (Some (bkernel b)) = Ok (bkernel b) /\
  klam (bkernel b) = Some lam /\ even_odd (bstat b) = Ok q /\ (0 < bsize b <= length (ss (bsve b)))%nat /\
  u_accepted (bsve b) (bbeta b) /\ v_accepted (bsve b) (bwmax b) /\
  ft_init (full_rd rd (bsve b) (bbeta b)) q (AsympAt (rd (40 * lam))) None = Ok f /\ ft_slice f (Z.of_nat (bsize b)) = Ok f' /\
  b = the_basis_rd rd pw (bstat b) (bbeta b) (bwmax b) (bkernel b) (bsve b) (bsize b) f f'.
Proof.
  intros (st & beta & wmax & eps & ms & ker & sve & H & Hok & Hw).
  destruct (basis_rd_inv u eta rd pw compute _ _ _ _ _ _ _ _ H Hok) as (k & r & lam & q & e & n & f & f' & Hb & _ & Hk & Hr & Ex & He & Hn & Hnl & Kl & Q & _ & _ & F & F' & Eb).
  assert (Sz : bsize b = n) by (rewrite Eb; unfold bsize; cbn [the_basis_rd bs]; rewrite map_length; apply firstn_length_le; lia).
  assert (Acc : exists qu qv, rescaled_rd rd (take n (su r)) (fun x => rd (rd (beta / 2) * rd (x + 1))) (rd (beta / 2)) = Ok qu /\ rescaled_rd rd (take n (sv r)) (fun y => rd (wmax * y)) wmax = Ok qv).
  { unfold basis_init_rd in H. destruct (negb (Rltb 0 beta)); [discriminate|]. destruct (negb (Rleb 0 wmax)); [discriminate|]. rewrite Hk in H. cbn [bind] in H. rewrite Hr in H. cbn [bind] in H.
    pose proof Ex as (_ & _ & Lu & Lv & Hs & Hp & _). rewrite (part_rd_part rd r eps ms e Hp Hs He) in H.
    destruct (part r (Some (cut_eps rd e (ss r))) ms) as [[[u0 s] v0]|] eqn:Ep; [|discriminate]. cbn [bind] in H.
    destruct (part_inv r _ ms _ Hs Ep) as (e' & He' & Hfl). cbn in He'. injection He' as <-.
    rewrite (part_val r (Some (cut_eps rd e (ss r))) ms (cut_eps rd e (ss r)) Lu Lv Hs eq_refl Hfl) in Ep. injection Ep as <- <- <-. rewrite <- Hn in H.
    destruct (match firstn n (ss r) with [] => Raise IndexError | s0 :: _ => _ end); [|discriminate]. cbn [bind] in H.
    destruct (rescaled_rd rd (take n (su r)) _ _) as [qu|] eqn:Eu; [|discriminate]. cbn [bind] in H. destruct (rescaled_rd rd (take n (sv r)) _ _) as [qv|] eqn:Ev; [|discriminate].
    exists qu, qv. split; reflexivity. }
  destruct Acc as (qu & qv & Au & Av). exists lam, q, f, f'. rewrite Sz. rewrite Eb. cbn [the_basis_rd bbeta bwmax bsve bstat bkernel].
  split; [exact Hb|]. split; [exact Hw|]. split; [exact Ex|]. split; [exact (kernel_again_rd _ _ _ _ Hk)|]. split; [exact Kl|]. split; [exact Q|]. split; [lia|].
  split; [intros m; exact (rescaled_any rd (rd (beta / 2)) (fun x => rd (x + 1)) n m (su r) qu Au)|].
  split; [intros m; exact (rescaled_any rd wmax (fun y => y) n m (sv r) qv Av)|]. split; [exact F|]. split; [exact F'|reflexivity].
Qed.

(** The parts determine the basis. *)
Lemma determined b b' : built_rd b -> built_rd b' -> same_setting b b' -> bsize b' = bsize b -> b' = b.
Proof.
  intros H H' (E1 & E2 & E3 & E4 & E5) E6. destruct (built_full b H) as (lam & q & f & f' & _ & _ & _ & _ & Kl & Q & _ & _ & _ & F & F' & ->).
  destruct (built_full b' H') as (lam1 & q1 & f1 & f1' & _ & _ & _ & _ & Kl1 & Q1 & _ & _ & _ & F1 & F1' & ->). cbn [the_basis_rd bbeta bwmax bsve bstat bkernel] in *.
  rewrite E1, E2, E3, E4, E5, E6 in *. rewrite Kl in Kl1. injection Kl1 as <-. rewrite Q in Q1. injection Q1 as <-. rewrite F in F1. injection F1 as <-. rewrite F' in F1'. injection F1' as <-. reflexivity.
Qed.

(** Making a basis from the parts of another. *)
Lemma kept_above e s : 0 < nth 0 s 0 -> nabove (cut_eps rd e s) s = kept rd e s.
Proof. intros P. unfold nabove, kept, cut_eps. replace (rd (e * nth 0 s 0) / nth 0 s 0 * nth 0 s 0) with (rd (e * nth 0 s 0)) by (field; lra). reflexivity. Qed.

Lemma first_value r : expansion_near u eta r -> 0 < nth 0 (ss r) 0.
Proof. intros (_ & _ & _ & _ & Hs & P & _). rewrite Forall_forall in P. apply P, nth_In. destruct (ss r); [easy|cbn; lia]. Qed.

Lemma remake_rd b beta wmax e n ms : built_rd b -> 0 < beta -> 0 < wmax ->
  get_kernel_rd rd (bstat b) (rd (beta * wmax)) (Some (bkernel b)) = Ok (bkernel b) ->
  seps (bsve b) = Some e -> ~ float_below ms (kept rd e (ss (bsve b))) -> n = part_size (ss (bsve b)) (cut_eps rd e (ss (bsve b))) ms -> (0 < n)%nat ->
  u_accepted (bsve b) beta -> v_accepted (bsve b) wmax ->
  exists b', init_rd (bstat b) beta wmax None ms (Some (bkernel b)) (Some (bsve b)) = Ok b' /\ built_rd b' /\ bsize b' = n /\
    bstat b' = bstat b /\ bbeta b' = beta /\ bwmax b' = wmax /\ bkernel b' = bkernel b /\ bsve b' = bsve b.
Proof.
  intros Hb Hbe Hwm Hk He Hfl Hn Hpos Au Av. destruct (built_full b Hb) as (lam & q & f0 & f0' & _ & _ & Ex & _ & Kl & Q & _).
  rewrite <- (kept_above e _ (first_value _ Ex)) in Hfl.
  destruct (basis_rd_ok u eta rd pw compute (bstat b) beta wmax None ms (Some (bkernel b)) (Some (bsve b)) (bkernel b) (bsve b) lam q e n) as (f & f' & E); auto; try lra.
  exists (the_basis_rd rd pw (bstat b) beta wmax (bkernel b) (bsve b) n f f'). split; [exact E|]. split; [exists (bstat b), beta, wmax, None, ms, (Some (bkernel b)), (Some (bsve b)); split; [exact E|]; split; [exact Ex|exact Hwm]|].
  split; [|repeat split]. unfold bsize. cbn [the_basis_rd bs]. rewrite map_length. apply firstn_length_le. rewrite Hn. apply part_size_le.
Qed.

(** * Slices *)
Lemma prefix_of b b' : built_rd b -> built_rd b' -> same_setting b b' -> (bsize b' <= bsize b)%nat -> first_of_rd (bsize b') b b'.
Proof.
  intros H H' (E1 & E2 & E3 & E4 & E5) Hle. destruct (built_full b H) as (lam & q & f & f' & _ & _ & Ex & _ & Kl & Q & Sz & _ & _ & F & F' & Eb).
  destruct (built_full b' H') as (lam1 & q1 & f1 & f1' & _ & _ & _ & _ & Kl1 & Q1 & Sz1 & _ & _ & F1 & F1' & Eb'). rewrite E1, E2, E3, E4, E5 in *.
  rewrite Kl in Kl1. injection Kl1 as <-. rewrite Q in Q1. injection Q1 as <-. rewrite F in F1. injection F1 as <-.
  assert (B1 : buhat b = f') by (rewrite Eb; reflexivity). assert (B2 : buhat b' = f1') by (rewrite Eb'; reflexivity).
  unfold first_of_rd. rewrite B1, B2. split; [|split; [|split]].
  - rewrite Eb, Eb' at 1. cbn [the_basis_rd bu]. unfold take. cbn [vgeom vcols]. rewrite firstn_firstn, Nat.min_l by exact Hle. reflexivity.
  - rewrite Eb, Eb' at 1. cbn [the_basis_rd bs]. rewrite firstn_map, firstn_firstn, Nat.min_l by exact Hle. reflexivity.
  - rewrite Eb, Eb' at 1. cbn [the_basis_rd bv]. unfold take. cbn [vgeom vcols]. rewrite firstn_firstn, Nat.min_l by exact Hle. reflexivity.
  - intros rd0 F0 model ns. destruct (ft_slice_some _ _ _ _ (Z.of_nat (bsize b)) F) as (g & G & G1 & G2 & G3 & G4). rewrite F' in G. injection G as <-.
    destruct (ft_slice_some _ _ _ _ (Z.of_nat (bsize b')) F) as (g & G & G1' & G2' & G3' & G4'). rewrite F1' in G. injection G as <-. rewrite slice_nat in G2, G2'.
    apply ft_call_prefix; try congruence; [rewrite G2, G2', firstn_firstn, Nat.min_l by exact Hle; reflexivity|]. rewrite G1. cbn [full_rd vgeom]. apply Ex.
Qed.

Lemma slice_rd b e i stop : built_rd b -> seps (bsve b) = Some e -> rd (e * nth 0 (ss (bsve b)) 0) <= nth 0 (ss (bsve b)) 0 -> prefix_slice i stop ->
  (stop = None \/ exists z, stop = Some (PyInt z) /\ (0 < z)%Z) ->
  let N := kept rd e (ss (bsve b)) in
  let n := match stop with Some (PyInt z) => Nat.min (Z.to_nat z) N | _ => N end in
  exists b', basis_getitem_rd rd pw compute b i = Ok b' /\ built_rd b' /\ bsize b' = n /\ same_setting b b' /\
    ((n <= bsize b)%nat -> first_of_rd n b b') /\ ((bsize b <= n)%nat -> first_of_rd (bsize b) b' b).
Proof.
  intros Hb He H1 Hi Hs N n. pose proof (built_full b Hb) as (lam & q & f & f' & Hbe & Hwm & Ex & Hk & _ & _ & _ & Au & Av & _).
  assert (P : (0 < N)%nat). { unfold N, kept. pose proof Ex as (_ & _ & _ & _ & Hs' & _). destruct (ss (bsve b)) as [|s0 s]; [easy|]. cbn [nth] in *. cbn [filter]. rewrite (proj2 (Rleb_true _ _) H1). cbn. lia. }
  assert (En : n = part_size (ss (bsve b)) (cut_eps rd e (ss (bsve b))) stop).
  { unfold n, part_size. rewrite (kept_above _ _ (first_value _ Ex)). destruct Hs as [->|(z & -> & Hz)]; [reflexivity|]. rewrite (proj2 (Z.ltb_ge z 0)) by lia. reflexivity. }
  assert (Pn : (0 < n)%nat) by (unfold n; destruct Hs as [->|(z & -> & Hz)]; [exact P|]; apply Nat.min_glb_lt; [lia|exact P]).
  destruct (remake_rd b (bbeta b) (bwmax b) e n stop Hb Hbe Hwm Hk He) as (b' & HI & Hb' & Sz & S1 & S2 & S3 & S4 & S5); auto. { destruct Hs as [->|(z & -> & _)]; cbn; auto. }
  exists b'. unfold basis_getitem_rd. rewrite (prefix_slice_size i stop Hi). cbn [bind]. split; [exact HI|]. split; [exact Hb'|]. split; [exact Sz|].
  assert (SS : same_setting b b') by (repeat split; assumption). split; [exact SS|]. rewrite <- Sz. split; intros Hle; [apply prefix_of; auto|].
  apply prefix_of; auto. destruct SS as (? & ? & ? & ? & ?). repeat split; congruence.
Qed.

(** * Rescaling *)
Lemma rescale_rd_ok b e nb lam : built_rd b -> seps (bsve b) = Some e -> rd (e * nth 0 (ss (bsve b)) 0) <= nth 0 (ss (bsve b)) 0 ->
  klam (bkernel b) = Some lam -> 0 < nb -> 0 < rd (lam / nb) -> lam_close_rd rd lam (rd (nb * rd (lam / nb))) = true ->
  0 < u <= / 10000 -> 0 <= eta <= / 10 ^ 12 -> fair_scale u eta (nb / 2) (vgeom (su (bsve b))) -> fair_scale u eta (rd (lam / nb)) (vgeom (sv (bsve b))) ->
  tolerated u (nb / 2) 1 (vgeom (su (bsve b))) -> tolerated u (rd (lam / nb)) 0 (vgeom (sv (bsve b))) ->
  exists b', rescale_rd rd pw compute b nb = Ok b' /\ built_rd b' /\ bbeta b' = nb /\ bwmax b' = rd (lam / nb) /\
    bstat b' = bstat b /\ bkernel b' = bkernel b /\ bsve b' = bsve b /\ bsize b' = Nat.min (bsize b) (kept rd e (ss (bsve b))).
Proof.
  intros Hb He H1 Kl Hnb Hw C Hu Heta Fu Fv Tu Tv. pose proof (built_full b Hb) as (lam0 & q & f & f' & Hbe & Hwm & Ex & Hk & Kl0 & _ & Sz & _). rewrite Kl in Kl0. injection Kl0 as <-.
  set (w := rd (lam / nb)) in *. set (n := Nat.min (bsize b) (kept rd e (ss (bsve b)))).
  assert (Hk' : get_kernel_rd rd (bstat b) (rd (nb * w)) (Some (bkernel b)) = Ok (bkernel b)).
  { unfold get_kernel_rd in *. destruct (negb (stat_in (bstat b))); [discriminate|]. rewrite Kl, C. reflexivity. }
  assert (Au : u_accepted (bsve b) nb).
  { intros m. pose proof Ex as (Su & _). assert (E1 : Rabs (rd (nb / 2) - nb / 2) <= u * (nb / 2) + eta) by (pose proof (proj1 Hrd (nb / 2)) as A; rewrite (Rabs_pos_eq (nb / 2)) in A by lra; exact A).
    exact (rescaled_ok u eta rd Hrd Hu (nb / 2) 1 (rd (nb / 2)) (fun x => rd (x + 1)) ltac:(lra) E1 (fun x => proj1 Hrd (x + 1)) (take m (su (bsve b))) Su Fu (proj2 Heta) Tu). }
  assert (Av : v_accepted (bsve b) w).
  { intros m. pose proof Ex as (_ & Sv & _). assert (E1 : Rabs (w - w) <= u * w + eta) by (rewrite Rminus_eq_0, Rabs_R0; assert (0 <= u * w) by (apply Rmult_le_pos; lra); lra).
    exact (rescaled_ok u eta rd Hrd Hu w 0 w (fun x => x) Hw E1 (shift0 u eta Hu (proj1 Heta)) (take m (sv (bsve b))) Sv Fv (proj2 Heta) Tv). }
  assert (P : (0 < kept rd e (ss (bsve b)))%nat). { unfold kept. pose proof Ex as (_ & _ & _ & _ & Hs' & _). destruct (ss (bsve b)) as [|s0 s]; [easy|]. cbn [nth] in *. cbn [filter]. rewrite (proj2 (Rleb_true _ _) H1). cbn. lia. }
  destruct (remake_rd b nb w e n (Some (PyInt (Z.of_nat (bsize b)))) Hb Hnb Hw Hk' He) as (b' & HI & Hb' & Sz' & S1 & S2 & S3 & S4 & S5); auto.
  { unfold n, part_size. rewrite (kept_above _ _ (first_value _ Ex)). rewrite (proj2 (Z.ltb_ge _ 0)) by lia. rewrite Nat2Z.id. reflexivity. }
  { unfold n. apply Nat.min_glb_lt; lia. }
  exists b'. unfold rescale_rd. rewrite Kl. unfold Reqb. destruct (Req_EM_T nb 0); [lra|]. repeat (split; [assumption|]). assumption.
Qed.

Lemma rescale_rd_errors b nb : built_rd b -> (nb = 0 -> rescale_rd rd pw compute b nb = Raise ZeroDivisionError) /\ (nb < 0 -> rescale_rd rd pw compute b nb = Raise ValueError).
Proof.
  intros Hb. destruct (built_full b Hb) as (lam & q & f & f' & _ & _ & _ & _ & Kl & _). unfold rescale_rd. rewrite Kl. unfold Reqb. split; intros H.
  - destruct (Req_EM_T nb 0); [reflexivity|contradiction].
  - destruct (Req_EM_T nb 0); [lra|]. unfold basis_init_rd. rewrite (proj2 (Rltb_false 0 nb)) by lra. reflexivity.
Qed.

(** * Histories *)
Lemma remade b beta wmax eps ms b' : built_rd b -> 0 < wmax -> init_rd (bstat b) beta wmax eps ms (Some (bkernel b)) (Some (bsve b)) = Ok b' ->
  built_rd b' /\ bstat b' = bstat b /\ bbeta b' = beta /\ bwmax b' = wmax /\ bkernel b' = bkernel b /\ bsve b' = bsve b.
Proof.
  intros Hb Hw H. destruct (built_full b Hb) as (lam & q & f & f' & _ & _ & Ex & Hk & Kl & _).
  assert (E : bstat b' = bstat b /\ bbeta b' = beta /\ bwmax b' = wmax /\ bkernel b' = bkernel b /\ bsve b' = bsve b).
  { unfold basis_init_rd in H. destruct (negb (Rltb 0 beta)); [discriminate|]. destruct (negb (Rleb 0 wmax)); [discriminate|].
    destruct (get_kernel_rd rd (bstat b) (rd (beta * wmax)) (Some (bkernel b))) as [k|] eqn:Ek; [|discriminate]. cbn [bind] in H.
    assert (k = bkernel b) as ->. { unfold get_kernel_rd in Ek. destruct (negb _); [discriminate|]. rewrite Kl in Ek. destruct (lam_close_rd _ _ _); [|discriminate]. congruence. }
    destruct (part_rd _ _ _ _) as [[[u0 s] v0]|]; [|discriminate]. cbn [bind] in H. destruct (match s with [] => _ | _ :: _ => _ end); [|discriminate]. cbn [bind] in H.
    destruct (rescaled_rd rd u0 _ _); [|discriminate]. cbn [bind] in H. destruct (rescaled_rd rd v0 _ _); [|discriminate]. cbn [bind] in H. rewrite Kl in H.
    destruct (even_odd _); [|discriminate]. cbn [bind] in H. destruct (ft_init _ _ _ _); [|discriminate]. cbn [bind] in H. destruct (ft_slice _ _); [|discriminate]. injection H as <-. repeat split. }
  destruct E as (E1 & E2 & E3 & E4 & E5). repeat (split; [|assumption || (repeat split; assumption)]). exists (bstat b), beta, wmax, eps, ms, (Some (bkernel b)), (Some (bsve b)). rewrite E5. auto.
Qed.

Lemma wmax_needed b nb lam b' : klam (bkernel b) = Some lam -> rd lam <> 0 -> rescale_rd rd pw compute b nb = Ok b' -> 0 < rd (lam / nb).
Proof.
  intros Kl Hl H. unfold rescale_rd in H. rewrite Kl in H. destruct (Reqb nb 0); [discriminate|]. unfold basis_init_rd in H. destruct (negb (Rltb 0 nb)); [discriminate|].
  destruct (Rleb 0 (rd (lam / nb))) eqn:E0; [|discriminate]. apply Rleb_true in E0. cbn [negb] in H. destruct E0 as [P|Z]; [exact P|exfalso].
  destruct (get_kernel_rd rd (bstat b) (rd (nb * rd (lam / nb))) (Some (bkernel b))) as [k|] eqn:Ek; [|discriminate]. unfold get_kernel_rd in Ek. destruct (negb _); [discriminate|]. rewrite Kl in Ek.
  destruct (lam_close_rd rd lam (rd (nb * rd (lam / nb)))) eqn:C; [|discriminate]. unfold lam_close_rd in C. apply Rleb_true in C.
  rewrite <- Z, Rmult_0_r, (rd_zero _ _ _ Hrd), Rminus_0_r, Rabs_R0, Rmult_0_r, !(rd_zero _ _ _ Hrd), Rplus_0_r, (rd_zero _ _ _ Hrd) in C.
  apply Hl. destruct (Req_dec (rd lam) 0) as [E|N]; [exact E|]. pose proof (Rabs_pos_lt _ N). lra.
Qed.

Lemma history b os b' lam : built_rd b -> klam (bkernel b) = Some lam -> rd lam <> 0 ->
  apply_ops rd pw compute b os = Ok b' ->
  built_rd b' /\ bstat b' = bstat b /\ bkernel b' = bkernel b /\ bsve b' = bsve b /\ (bbeta b', bwmax b') = last_scale rd lam (bbeta b) (bwmax b) os.
Proof.
  revert b. induction os as [|o os IH]; intros b Hb Kl Hl H; cbn [apply_ops] in H.
  - injection H as <-. auto.
  - destruct (apply_op rd pw compute b o) as [b1|] eqn:E; [|discriminate]. cbn [bind] in H.
    assert (B1 : built_rd b1 /\ bstat b1 = bstat b /\ bkernel b1 = bkernel b /\ bsve b1 = bsve b /\ (bbeta b1, bwmax b1) = last_scale rd lam (bbeta b) (bwmax b) [o]).
    { destruct o as [i|t]; cbn [apply_op last_scale] in *.
      - unfold basis_getitem_rd in E. destruct (slice_to_size i) as [n|]; [|discriminate]. cbn [bind] in E. destruct (built_full b Hb) as (_ & _ & _ & _ & _ & Hwm & _).
        destruct (remade _ _ _ _ _ _ Hb Hwm E) as (A & A1 & A2 & A3 & A4 & A5). repeat (split; [assumption|]). congruence.
      - pose proof (wmax_needed _ _ _ _ Kl Hl E) as Hw. unfold rescale_rd in E. rewrite Kl in E. destruct (Reqb t 0); [discriminate|].
        destruct (remade _ _ _ _ _ _ Hb Hw E) as (A & A1 & A2 & A3 & A4 & A5). repeat (split; [assumption|]). congruence. }
    destruct B1 as (A & A1 & A2 & A3 & A4). destruct (IH b1 A) as (C & C1 & C2 & C3 & C4); [congruence|exact Hl|exact H|].
    split; [exact C|]. split; [congruence|]. split; [congruence|]. split; [congruence|]. rewrite C4. destruct o as [i|t]; cbn [last_scale] in A4 |- *; injection A4 as -> ->; reflexivity.
Qed.

(** What a basis is does not depend on the way it was reached. *)
Lemma routes b os1 os2 b1 b2 lam : built_rd b -> klam (bkernel b) = Some lam -> rd lam <> 0 ->
  apply_ops rd pw compute b os1 = Ok b1 -> apply_ops rd pw compute b os2 = Ok b2 ->
  last_scale rd lam (bbeta b) (bwmax b) os1 = last_scale rd lam (bbeta b) (bwmax b) os2 -> bsize b1 = bsize b2 -> b1 = b2.
Proof.
  intros Hb Kl Hl H1 H2 E Sz. destruct (history _ _ _ _ Hb Kl Hl H1) as (A & A1 & A2 & A3 & A4). destruct (history _ _ _ _ Hb Kl Hl H2) as (B & B1 & B2 & B3 & B4).
  apply determined; auto. rewrite <- E, <- A4 in B4. injection B4 as Eb Ew. repeat split; congruence.
Qed.

(** * Significance *)
Hypothesis Hmono : forall x y, x <= y -> rd x <= rd y.

Lemma values_form b : built_rd b -> 0 < nth 0 (bs b) 0 -> exists c, 0 < c /\ bs b = map (fun x => rd (c * x)) (firstn (bsize b) (ss (bsve b))) /\ (bsize b <= length (ss (bsve b)))%nat /\
  nonincreasing (ss (bsve b)) /\ Forall (fun x => 0 < x) (ss (bsve b)).
Proof.
  intros Hb H0. destruct (built_full b Hb) as (lam & q & f & f' & _ & _ & Ex & _ & _ & _ & Sz & _ & _ & _ & _ & Eb).
  assert (Ebs : bs b = map (fun x => rd (s_factor rd pw (bbeta b) (bwmax b) (kyp (bkernel b)) * x)) (firstn (bsize b) (ss (bsve b)))) by (rewrite Eb at 1; reflexivity).
  set (c := s_factor _ _ _ _ _) in *. exists c. pose proof (first_value _ Ex) as P0. pose proof Ex as (_ & _ & _ & _ & _ & P & Ni).
  split; [|split; [exact Ebs|split; [lia|split; [exact Ni|exact P]]]].
  rewrite Ebs in H0. rewrite (nth_indep _ 0 (rd (c * 0))) in H0 by (rewrite map_length, firstn_length_le; lia). rewrite (map_nth (fun x => rd (c * x))) in H0.
  assert (E0 : nth 0 (firstn (bsize b) (ss (bsve b))) 0 = nth 0 (ss (bsve b)) 0) by (destruct (bsize b), (ss (bsve b)); cbn in *; lia || reflexivity). rewrite E0 in H0.
  destruct (Rlt_dec 0 c) as [Pc|N]; [exact Pc|exfalso]. assert (c * nth 0 (ss (bsve b)) 0 <= 0) by nra. pose proof (proj2 (proj2 Hrd) _ H). lra.
Qed.

Lemma values_sorted b : built_rd b -> 0 < nth 0 (bs b) 0 -> nonincreasing (bs b) /\ Forall (fun x => 0 <= x) (bs b).
Proof.
  intros Hb H0. destruct (values_form b Hb H0) as (c & Pc & Ebs & Hle & Ni & P). rewrite Ebs. split.
  - unfold nonincreasing in *. pose proof (sorted_firstn (bsize b) _ Ni) as Ni'. unfold nonincreasing in Ni'.
    revert Ni'. clear - Hmono Pc. induction 1 as [|a l Hl IH Ha]; cbn [map]; constructor; [exact IH|]. rewrite Forall_forall in *. intros y Hy. apply in_map_iff in Hy. destruct Hy as (x & <- & Hx).
    apply Hmono, Rmult_le_compat_l; [lra|]. apply Ha, Hx.
  - rewrite Forall_forall in *. intros y Hy. apply in_map_iff in Hy. destruct Hy as (x & <- & Hx). apply (proj1 (proj2 Hrd)), Rmult_le_pos; [lra|]. left. apply P. rewrite <- (firstn_skipn (bsize b)). apply in_app_iff. auto.
Qed.

Lemma significance_range b : built_rd b -> 0 < nth 0 (bs b) 0 -> rd 1 = 1 ->
  length (significance_rd rd b) = bsize b /\ nth 0 (significance_rd rd b) 0 = 1 /\ nonincreasing (significance_rd rd b) /\ Forall (fun x => 0 <= x <= 1) (significance_rd rd b).
Proof.
  intros Hb H0 R1. destruct (values_sorted b Hb H0) as [Ni P]. unfold significance_rd. split; [apply map_length|].
  assert (Hm : forall x y, 0 <= x <= y -> y <= nth 0 (bs b) 0 -> 0 <= rd (x / nth 0 (bs b) 0) <= rd (y / nth 0 (bs b) 0) /\ rd (y / nth 0 (bs b) 0) <= 1).
  { intros x y Hx Hy. assert (PI : 0 < / nth 0 (bs b) 0) by (apply Rinv_0_lt_compat, H0). split; [split|].
    - apply (proj1 (proj2 Hrd)), Rmult_le_pos; lra.
    - apply Hmono. unfold Rdiv. apply Rmult_le_compat_r; lra.
    - rewrite <- R1. apply Hmono. apply (Rmult_le_reg_r (nth 0 (bs b) 0)); [exact H0|]. unfold Rdiv. rewrite Rmult_assoc, Rinv_l; lra. }
  destruct (bs b) as [|s0 s]; [cbn in H0; lra|]. cbn [nth] in *. cbn [map nth]. split; [unfold Rdiv; rewrite Rinv_r by lra; exact R1|].
  inversion Ni as [|? ? Ni' Ha]; subst. inversion P as [|? ? P0 P']; subst. rewrite Forall_forall in Ha, P'. split.
  - constructor.
    + unfold nonincreasing in *. clear Ni P. induction Ni' as [|a l Hl IH Hal]; cbn [map]; constructor; [apply IH; intros; [apply Ha|apply P']; right; auto|].
      rewrite Forall_forall in *. intros y Hy. apply in_map_iff in Hy. destruct Hy as (x & <- & Hx). apply Hm; [split; [apply P'; right; auto|apply Hal, Hx]|apply Ha; left; auto].
    + rewrite Forall_forall. intros y Hy. apply in_map_iff in Hy. destruct Hy as (x & <- & Hx). apply Hm; [split; [apply P', Hx|apply Ha, Hx]|lra].
  - constructor; [destruct (Hm 0 s0); lra|]. rewrite Forall_forall. intros y Hy. apply in_map_iff in Hy. destruct Hy as (x & <- & Hx). destruct (Hm x x); [split; [apply P', Hx|lra]|apply Ha, Hx|]. lra.
Qed.

Lemma significance_error b l : built_rd b -> 0 < u <= / 10000 -> 0 <= eta -> (l < bsize b)%nat -> 0 < nth l (bs b) 0 -> 1000 * eta <= u * nth l (bs b) 0 ->
  let q := nth l (ss (bsve b)) 0 / nth 0 (ss (bsve b)) 0 in
  Rabs (nth l (significance_rd rd b) 0 - q) <= 4 * u * q + eta.
Proof.
  intros Hb Hu He Hl Hs Ht. cbv zeta.
  assert (H0 : 0 < nth 0 (bs b) 0).
  { destruct (built_full b Hb) as (lam & q & f & f' & _ & _ & Ex & _ & _ & _ & Sz & _ & _ & _ & _ & Eb).
    assert (Ebs : bs b = map (fun x => rd (s_factor rd pw (bbeta b) (bwmax b) (kyp (bkernel b)) * x)) (firstn (bsize b) (ss (bsve b)))) by (rewrite Eb at 1; reflexivity).
    set (c := s_factor _ _ _ _ _) in *. pose proof Ex as (_ & _ & _ & _ & _ & P & Ni).
    assert (Vl : forall k, (k < bsize b)%nat -> nth k (bs b) 0 = rd (c * nth k (ss (bsve b)) 0)).
    { intros k Hk. rewrite Ebs at 1. rewrite (nth_indep _ 0 (rd (c * 0))) by (rewrite map_length, firstn_length_le; lia). rewrite (map_nth (fun x => rd (c * x))), nth_firstn by lia. reflexivity. }
    eapply Rlt_le_trans; [exact Hs|]. rewrite (Vl l Hl) in Hs. rewrite (Vl l Hl), (Vl 0%nat) by lia.
    assert (Pl : 0 < nth l (ss (bsve b)) 0) by (rewrite Forall_forall in P; apply P, nth_In; lia).
    assert (Pc : 0 < c). { destruct (Rlt_dec 0 c) as [Pc|N]; [exact Pc|exfalso]. assert (A : c * nth l (ss (bsve b)) 0 <= 0) by nra. pose proof (proj2 (proj2 Hrd) _ A). lra. }
    apply Hmono, Rmult_le_compat_l; [lra|]. apply nonincreasing_nth; [exact Ni|lia|lia]. }
  destruct (values_form b Hb H0) as (c & Pc & Ebs & Hle & Ni & P). destruct (values_sorted b Hb H0) as [Nb _].
  assert (Ord : nth l (bs b) 0 <= nth 0 (bs b) 0) by (apply nonincreasing_nth; [exact Nb|lia|exact Hl]).
  assert (Vl : forall k, (k < bsize b)%nat -> nth k (bs b) 0 = rd (c * nth k (ss (bsve b)) 0)).
  { intros k Hk. rewrite Ebs at 1. rewrite (nth_indep _ 0 (rd (c * 0))) by (rewrite map_length, firstn_length_le; lia). rewrite (map_nth (fun x => rd (c * x))), nth_firstn by lia. reflexivity. }
  unfold significance_rd. rewrite (nth_indep _ 0 (rd (0 / nth 0 (bs b) 0))) by (rewrite map_length; exact Hl). rewrite (map_nth (fun x => rd (x / nth 0 (bs b) 0))).
  rewrite Forall_forall in P. assert (Pl : 0 < nth l (ss (bsve b)) 0) by (apply P, nth_In; lia). assert (P0 : 0 < nth 0 (ss (bsve b)) 0) by (apply P, nth_In; lia).
  pose proof (proj1 Hrd (c * nth l (ss (bsve b)) 0)) as Al. rewrite <- Vl in Al by exact Hl. pose proof (proj1 Hrd (c * nth 0 (ss (bsve b)) 0)) as A0. rewrite <- Vl in A0 by lia.
  set (x := nth l (bs b) 0) in *. set (y := nth 0 (bs b) 0) in *. set (sl := nth l (ss (bsve b)) 0) in *. set (s0 := nth 0 (ss (bsve b)) 0) in *.
  assert (Px : 0 < c * sl) by (apply Rmult_lt_0_compat; lra). assert (Py : 0 < c * s0) by (apply Rmult_lt_0_compat; lra).
  replace (sl / s0) with (c * sl / (c * s0)) by (field; lra). revert Al A0 Px Py. generalize (c * sl) (c * s0). intros X Y Al A0 PX PY.
  rewrite (Rabs_pos_eq X) in Al by lra. rewrite (Rabs_pos_eq Y) in A0 by lra.
  assert (Bx : Rabs (x - X) <= 1002 / 1000 * u * X). { apply Rabs_le_between in Al. assert (x <= 1001 / 1000 * X) by nra. apply Rabs_le. nra. }
  assert (By : Rabs (y - Y) <= 1002 / 1000 * u * Y). { apply Rabs_le_between in A0. assert (1000 * eta <= u * y) by nra. assert (y <= 1001 / 1000 * Y) by nra. apply Rabs_le. nra. }
  assert (Q : Rabs (x / y - X / Y) <= 21 / 10 * u * (X / Y)).
  { assert (Pyy : 0 < y) by exact H0. assert (Pq : 0 < X / Y) by (apply Rdiv_lt_0_compat; lra). set (q := X / Y) in *. assert (EX : X = q * Y) by (unfold q; field; lra). clearbody q. subst X.
    apply Rabs_le_between in Bx. apply Rabs_le_between in By.
    assert (D : Rabs (x - q * y) <= 2005 / 1000 * u * (q * Y)). { apply Rabs_le. nra. }
    assert (Yy : Y <= 1001 / 1000 * y) by nra.
    replace (x / y - q) with ((x - q * y) / y) by (field; lra). unfold Rdiv. rewrite Rabs_mult, (Rabs_pos_eq (/ y)) by (left; apply Rinv_0_lt_compat, Pyy).
    apply (Rmult_le_reg_r y); [exact Pyy|]. rewrite Rmult_assoc, Rinv_l, Rmult_1_r by lra. eapply Rle_trans; [exact D|]. assert (0 <= u * q) by (apply Rmult_le_pos; lra). nra. }
  assert (Pq : 0 < X / Y) by (apply Rdiv_lt_0_compat; lra). assert (Pxy : 0 < x / y) by (apply Rdiv_lt_0_compat; lra).
  pose proof (proj1 Hrd (x / y)) as Af. rewrite (Rabs_pos_eq (x / y)) in Af by lra. apply Rabs_le_between in Q. apply Rabs_le_between in Af. apply Rabs_le. set (q := X / Y) in *. set (z := x / y) in *.
  assert (0 <= u * q) by (apply Rmult_le_pos; lra). assert (z <= 1001 / 1000 * q) by nra. nra.
Qed.
End Ops.
