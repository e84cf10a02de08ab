(** Proofs of C98: truncation, transforms, success, exact arithmetic. *)
From Coq Require Import Reals ZArith Arith Bool Lra Lia Psatz String.
From Flocq Require Import Core.
From Coquelicot Require Import Coquelicot.
From Coq Require Import List Sorting.Sorted.
From Verif.Model Require Import Base Util Num IEEE Poly PolyIEEE FT FTIEEE SVE Basis BasisIEEE.
From Verif.Spec Require Import SPoly SFT SSVE SBasis SKernelIEEE SGaussIEEE SPolyIEEE SSVEIEEE SFTIEEE SBasisIEEE.
From Verif.Proofs Require Import BaseFacts UtilFacts SumFacts IntFacts LegFacts PPolyFacts SVEFacts KernelRoundCall FTFacts FTModel FTCall FTProps BasisFacts BasisInit BasisProps BasisPhys GaussRound BesselBounds PolyRound LstsqFacts DLRProps FTRound FTRoundSum FTRoundProps BasisRoundPiece BasisRoundGeom BasisRound BasisRoundProps.
Import ListNotations.
Open Scope R_scope.
Notation length := List.length.

(** * Truncation *)
Lemma rd_truncation u eta rd pw compute st beta wmax e ms ker sve b : rounding u eta rd ->
  basis_init_rd rd pw compute st beta wmax (Some e) ms ker sve = Ok b -> expansion_near u eta (bsve b) -> 0 <= e ->
  (ms = None \/ exists z, ms = Some (PyInt z) /\ (0 <= z)%Z) ->
  let s := ss (bsve b) in let n := length (bs b) in
  (forall z, ms = Some (PyInt z) -> (Z.of_nat n <= z)%Z) /\
  (forall l, (l < n)%nat -> (1 - u) * (e * nth 0 s 0) - eta <= nth l s 0) /\
  (forall l, (n <= l < length s)%nat -> nth l s 0 <= (1 + u) * (e * nth 0 s 0) + eta \/ ms = Some (PyInt (Z.of_nat n))).
Proof.
  intros Hrd H Hok E0 Hms. cbv zeta.
  destruct (basis_rd_inv u eta rd pw compute _ _ _ _ _ _ _ _ H Hok) as (k & r & lam & q & e' & n & f & f' & B & _ & _ & _ & Ex & Ee & Hn & Hl & Kl & Q & Wu & Wv & F & F' & ->).
  cbn in Ee. injection Ee as <-. cbn [the_basis_rd bsve bs]. rewrite map_length, firstn_length_le by lia.
  destruct Ex as (_ & _ & _ & _ & Hs & P & Ni). rewrite Forall_forall in P. assert (P0 : 0 < nth 0 (ss r) 0) by (apply P, nth_In; lia).
  set (s := ss r) in *. set (t := e * nth 0 s 0). assert (Pt : 0 <= t) by (apply Rmult_le_pos; lra). pose proof (proj1 Hrd t) as A. rewrite (Rabs_pos_eq t Pt) in A. apply Rabs_le_between in A.
  assert (C0 : 0 <= cut_eps rd e s). { unfold cut_eps. fold t. apply Rmult_le_pos; [apply (proj1 (proj2 Hrd)); exact Pt|left; apply Rinv_0_lt_compat; exact P0]. }
  assert (C1 : cut_eps rd e s * nth 0 s 0 = rd t) by (unfold cut_eps; fold t; field; lra).
  pose proof (nabove_prefix _ s C0 Ni) as Pre. rewrite C1 in Pre. set (m := nabove (cut_eps rd e s) s) in *.
  assert (Lm : (m <= length s)%nat) by apply nabove_le.
  assert (Kept : forall l, (l < m)%nat -> rd t <= nth l s 0).
  { intros l Hlm. assert (I : In (nth l s 0) (firstn m s)). { replace (nth l s 0) with (nth l (firstn m s) 0) by (apply nth_firstn; exact Hlm). apply nth_In. rewrite firstn_length_le; auto. }
    rewrite Pre in I. apply filter_In in I. apply Rleb_true, I. }
  assert (Drop : forall l, (m <= l < length s)%nat -> nth l s 0 < rd t).
  { intros l [L1 L2]. destruct (Rlt_or_le (nth l s 0) (rd t)) as [C|C]; [exact C|exfalso].
    assert (X : (S l <= m)%nat); [|lia]. unfold m, nabove. rewrite C1.
    assert (Y : filter (fun x => Rleb (rd t) x) (firstn (S l) s) = firstn (S l) s).
    { apply filter_true. intros x Ix. apply (In_nth _ _ 0) in Ix. destruct Ix as (j & Lj & <-). rewrite firstn_length_le in Lj by lia. rewrite nth_firstn by exact Lj.
      apply Rleb_true. eapply Rle_trans; [exact C|]. destruct (Nat.eq_dec j l) as [->|]; [lra|]. apply (proj1 (StronglySorted_nth (fun a b => b <= a) s 0) Ni j l); lia. }
    rewrite <- (firstn_skipn (S l) s) at 1. rewrite filter_app, app_length, Y, firstn_length_le by lia. lia. }
  destruct Hms as [->|(z & -> & Hz)]; cbn [part_size] in Hn; fold m in Hn.
  - subst n. split; [discriminate|]. split; [intros l Hlm; specialize (Kept l Hlm); lra|]. intros l Hlm. left. specialize (Drop l Hlm). lra.
  - destruct (Z.ltb_spec z 0) as [|_]; [lia|]. split; [intros z' [= <-]; lia|]. split; [intros l Hlm; specialize (Kept l ltac:(lia)); lra|].
    intros l Hlm. destruct (le_lt_dec m n) as [C|C]; [left; specialize (Drop l ltac:(lia)); lra|right]. do 2 f_equal. lia.
Qed.

(** * The transform *)
Lemma transform_error_le u eta d th g c c' n : 0 <= d -> 0 <= u -> (forall i, (i < gnseg g)%nat -> 0 <= reach (knot g i) (knot g (S i))) ->
  (forall p i, (p < gorder g)%nat -> (i < gnseg g)%nat -> Rabs (cdat c p i) <= Rabs (cdat c' p i)) -> transform_error u eta d th g c n <= transform_error u eta d th g c' n.
Proof.
  intros Hd Hu Hre H. unfold transform_error. apply Rplus_le_compat_r, Rplus_le_compat_r. apply sumn_le. intros i Hi. apply Rmult_le_compat_l.
  - apply Rmult_le_pos; [apply sqrt_pos|]. apply Rplus_le_le_0_compat; [|exact Hd]. pose proof (pos_INR (gnseg g)). pose proof (Rabs_pos (IZR n)).
    apply Rmult_le_pos; [|exact Hu]. apply Rmult_le_pos; [|auto]. apply Rmult_le_pos; lra.
  - apply sumn_le. auto.
Qed.

Lemma transform_error_plus u eta d d' th g c n : 
  transform_error u eta d th g c n + sumn (gnseg g) (fun i => sqrt (knot g (S i) - knot g i) * d' * sumn (gorder g) (fun p => Rabs (cdat c p i))) = transform_error u eta (d + d') th g c n.
Proof.
  unfold transform_error. match goal with |- ?A + ?B + ?C + ?D = _ => replace (A + B + C + D) with ((A + D) + B + C) by ring end. do 2 f_equal.
  rewrite <- sumn_plus. apply sumn_ext. intros i _. ring.
Qed.

Lemma reach_pos a b : a <= b -> 0 <= reach a b.
Proof.
  intros H. unfold reach. apply Rplus_le_le_0_compat; [|lra]. repeat apply Rmin_glb; apply Rabs_pos.
Qed.

Lemma pin_ex_mod g n p i : Cmod (t_pin_ex g n p i) <= 2.
Proof. unfold t_pin_ex. rewrite Cmod_mult, cexp_mod, Rmult_1_r. apply tnl_mod. Qed.

Lemma entry_diff u eta g c c' n D : geom_near u eta g -> gxmin g = -1 -> gxmax g = 1 ->
  (forall p i, (p < gorder g)%nat -> (i < gnseg g)%nat -> Rabs (cdat c' p i - cdat c p i) <= D p i) ->
  Cmod (Cminus (unl_entry (exactg g) c' n) (unl_entry (exactg g) c n)) <= sumn (gnseg g) (fun i => sqrt (knot g (S i) - knot g i) * sumn (gorder g) (fun p => D p i)).
Proof.
  intros Hg H1 H2 HD. rewrite !(unl_ideal u eta g Hg H1 H2).
  assert (E : forall m (f h : nat -> C), Cminus (csumn m f) (csumn m h) = csumn m (fun i => Cminus (f i) (h i))).
  { intros m f h. induction m as [|m IH]; [cbn; ring|]. cbn [csumn]. rewrite <- IH. ring. }
  rewrite E. eapply Rle_trans; [apply csumn_Cmod|]. apply sumn_le. intros i Hi. rewrite E. eapply Rle_trans; [apply csumn_Cmod|]. rewrite <- sumn_scal. apply sumn_le. intros p Hp.
  unfold data_ex. rewrite <- (RtoC_mult), <- (RtoC_mult) || idtac.
  set (L := knot g (S i) - knot g i). replace (Cminus _ _) with (Cmult (t_pin_ex g n p i) (RtoC ((cdat c' p i - cdat c p i) * (sqrt L / 2)))).
  2: { rewrite !RtoC_mult, RtoC_minus. ring. }
  rewrite Cmod_mult, Cmod_RtoC, Rabs_mult. pose proof (sqrt_pos L) as SL. rewrite (Rabs_pos_eq (sqrt L / 2)) by lra.
  replace (sqrt L * D p i) with (2 * (D p i * (sqrt L / 2))) by field. apply Rmult_le_compat; [apply Cmod_ge_0|apply Rmult_le_pos; [apply Rabs_pos|lra]|apply pin_ex_mod|].
  apply Rmult_le_compat_r; [lra|auto].
Qed.

Lemma phys_integral beta g c n (w : C) : 0 < beta ->
  is_fourier (fun x => PI * IZR n * (x + 1) / 2) (cval g (Col (fun k i => sqrt beta * cdat c k i) (csym c))) (-1) 1 (Cmult (RtoC (sqrt 2)) w) ->
  is_fourier (fun t => PI * IZR n * t / beta) (fun t => sqrt (2 / beta) * cval g c (2 * t / beta - 1)) 0 beta w.
Proof.
  intros Pb Hv. set (c' := Col _ _) in Hv.
  assert (Hc : forall x, cval g c' x = sqrt beta * cval g c x).
  { intros x. unfold cval, c'. cbn [cdat]. unfold legval. rewrite <- Rmult_assoc. f_equal.
    rewrite <- sumn_scal. apply sumn_ext. intros; ring. }
  assert (E2 : sqrt beta = sqrt 2 * sqrt (beta / 2)).
  { rewrite <- sqrt_mult by lra. f_equal. field. }
  assert (E3 : sqrt (2 / beta) * (beta / 2) = sqrt (beta / 2)).
  { replace (2 / beta) with (/ (beta / 2)) by (field; lra). rewrite sqrt_inv.
    rewrite <- (sqrt_sqrt (beta / 2)) at 2 by lra. field. apply Rgt_not_eq, sqrt_lt_R0. lra. }
  pose proof (sqrt_lt_R0 2 ltac:(lra)) as P2.
  assert (Hgen : forall (h : R -> R) (I : R), is_RInt (fun x => h (PI * IZR n * (x + 1) / 2) * cval g c' x) (-1) 1 (sqrt 2 * I) ->
            is_RInt (fun t => h (PI * IZR n * t / beta) * (sqrt (2 / beta) * cval g c (2 * t / beta - 1))) 0 beta I).
  { intros h I HI. apply (is_RInt_scalR _ _ _ _ (/ sqrt 2)) in HI.
    replace (/ sqrt 2 * (sqrt 2 * I)) with I in HI by (field; lra).
    match type of HI with is_RInt ?F _ _ _ => assert (HI' : is_RInt F (2 / beta * 0 + -1) (2 / beta * beta + -1) I) end.
    { replace (2 / beta * 0 + -1) with (-1) by ring. replace (2 / beta * beta + -1) with 1 by (field; lra). exact HI. }
    clear HI. rename HI' into HI. apply is_RInt_lin in HI. revert HI. apply is_RInt_ext_in; [lra|]. intros t Ht. rewrite Hc.
    replace (2 / beta * t + -1) with (2 * t / beta - 1) by (field; lra).
    replace (PI * IZR n * (2 * t / beta - 1 + 1) / 2) with (PI * IZR n * t / beta) by (field; lra).
    rewrite E2. set (X := cval _ _ _). set (Y := h _).
    replace (sqrt (2 / beta)) with (2 / beta * sqrt (beta / 2)) by (rewrite <- E3; field; lra).
    field. split; lra. }
  destruct Hv as [Hre Him]. split.
  - apply (Hgen cos). replace (sqrt 2 * Re w) with (Re (Cmult (RtoC (sqrt 2)) w)); auto.
    unfold Re, Cmult, RtoC; simpl; ring.
  - apply (Hgen sin). replace (sqrt 2 * Im w) with (Im (Cmult (RtoC (sqrt 2)) w)); auto.
    unfold Im, Cmult, RtoC; simpl; ring.
Qed.

Lemma uhat_near u eta rd r beta ej ec um em gam th F model f ns M l c j n T :
  rounding u eta rd -> 0 < u <= / 10000 -> 0 <= eta -> 0 < beta -> stored u eta (su r) -> let g := vgeom (su r) in
  1000 * eta <= u * sqrt beta -> INR (gnseg g) * u <= / 200 ->
  library_near (gorder g) (gorder g * gnseg g) u ej ec um em gam th F -> small_library ej ec um em gam ->
  fgeom f = g -> fasymp f = Some T -> nth_error (fcols f) l = Some (Col (fun k i => rd (rd (sqrt beta) * cdat c k i)) (csym c)) ->
  ft_call_rd rd F model f ns = Ok M -> nth_error ns j = Some n -> Rabs (IZR n) < T ->
  exists v w, entry M l j = Some v /\
    is_fourier (fun t => PI * IZR n * t / beta) (fun t => sqrt (2 / beta) * cval (ideal_geom g) c (2 * t / beta - 1)) 0 beta w /\
    Cmod (Cminus v w) <= uhat_error u eta (constant_error u ej ec um em gam) th beta g c n.
Proof.
  intros Hrd Hu He Pb Su g Fb Fn HF Hs G A Ec HM Hn Hx. destruct Su as (Hg & H1 & H2 & Hfl & Ho & Hlo). fold g in Hg, H1, H2, Hfl, Ho, Hlo.
  set (q' := rd (sqrt beta)) in *. set (c' := Col (fun k i => rd (q' * cdat c k i)) (csym c)) in *.
  set (ci := Col (fun k i => sqrt beta * cdat c k i) (csym c)). set (w := unl_entry (exactg g) ci n).
  assert (Iw : is_fourier (fun x => PI * IZR n * (x + 1) / 2) (cval (exactg g) ci) (-1) 1 (Cmult (RtoC (sqrt 2)) w)) by (apply (unl_fourier (exactg g) (exactg_ok _ _ _ Hg) H1 H2 Hlo)).
  exists (unl_entry_rd rd F g c' j l n), w. split; [|split].
  - rewrite (call_rd_entry rd F model f ns M l c' j n) by (rewrite ?G; auto; apply Hg). f_equal. unfold rd_value, use_asymp. rewrite A, G. unfold Rleb. destruct (Rle_dec (T) (Rabs (IZR n))); [lra|reflexivity].
  - apply phys_integral; [exact Pb|exact Iw].
  - pose proof (entry_near u eta rd Hrd Hu He g Hg H1 H2 Hfl Fn ej ec um em gam th F HF Hs c' j l n) as N1.
    set (Bc := fun p i => 1001 / 1000 * sqrt beta * Rabs (cdat c p i) + eta / u).
    pose proof (sqrt_lt_R0 _ Pb) as PS. assert (Eu : eta <= / 10000 * (eta / u)). { apply (Rmult_le_reg_r u); [lra|]. replace (/ 10000 * (eta / u) * u) with (eta * / 10000) by (field; lra). apply Rmult_le_compat_l; lra. }
    assert (Q : Rabs (q' - sqrt beta) <= 1001 / 1000 * (u * sqrt beta)). { unfold q'. pose proof (proj1 Hrd (sqrt beta)) as X. rewrite (Rabs_pos_eq (sqrt beta)) in X by lra. lra. }
    assert (DB : forall p i, Rabs (cdat c' p i - cdat ci p i) <= 3 * u * Bc p i /\ Rabs (cdat c' p i) <= Bc p i).
    { intros p i. cbn [c' ci cdat]. set (x := cdat c p i). pose proof (proj1 Hrd (q' * x)) as X. set (S := sqrt beta) in *. unfold Bc. fold S x.
      assert (Y : Rabs (q' * x - S * x) <= 1001 / 1000 * (u * S) * Rabs x) by (replace (q' * x - S * x) with ((q' - S) * x) by ring; rewrite Rabs_mult; apply Rmult_le_compat_r; [apply Rabs_pos|exact Q]).
      assert (SX : 0 <= S * Rabs x) by (apply Rmult_le_pos; [lra|apply Rabs_pos]). assert (US : 0 <= u * (S * Rabs x) <= / 10000 * (S * Rabs x)) by (split; [apply Rmult_le_pos; lra|apply Rmult_le_compat_r; lra]).
      assert (Z : Rabs (q' * x) <= 10002 / 10000 * (S * Rabs x)).
      { replace (q' * x) with ((q' * x - S * x) + S * x) by ring. eapply Rle_trans; [apply Rabs_triang|]. rewrite (Rabs_mult S), (Rabs_pos_eq S) by lra. lra. }
      assert (UZ : u * Rabs (q' * x) <= u * (10002 / 10000 * (S * Rabs x))) by (apply Rmult_le_compat_l; lra).
      assert (EU : u * (eta / u) = eta) by (field; lra). assert (EP : 0 <= eta / u) by (apply Rmult_le_pos; [lra|left; apply Rinv_0_lt_compat; lra]).
      split.
      - replace (rd (q' * x) - S * x) with ((rd (q' * x) - q' * x) + (q' * x - S * x)) by ring. eapply Rle_trans; [apply Rabs_triang|]. lra.
      - replace (rd (q' * x)) with ((rd (q' * x) - q' * x) + q' * x) by ring. eapply Rle_trans; [apply Rabs_triang|]. lra. }
    pose proof (entry_diff u eta g ci c' n (fun p i => 3 * u * Bc p i) Hg H1 H2 (fun p i _ _ => proj1 (DB p i))) as N2.
    assert (BP : forall p i, Rabs (Bc p i) = Bc p i). { intros p i. apply Rabs_pos_eq. eapply Rle_trans; [apply Rabs_pos|exact (proj2 (DB p i))]. }
    unfold uhat_error. rewrite <- transform_error_plus. fold w in N2. set (v0 := unl_entry_rd _ _ _ _ _ _ _) in *. set (w0 := unl_entry (exactg g) c' n) in *.
    replace (Cminus v0 w) with (Cplus (Cminus v0 w0) (Cminus w0 w)) by ring. eapply Rle_trans; [apply Cmod_triangle|]. apply Rplus_le_compat.
    + eapply Rle_trans; [exact N1|]. apply transform_error_le; [|lra| |].
      * destruct HF as (P1 & P2 & P3 & P4 & P5 & _). unfold constant_error. lra.
      * intros i Hi. apply reach_pos. destruct Hg as (_ & L & S & _). unfold knot. left. apply (PPolyFacts.sorted_nth_lt _ i (Datatypes.S i) S); lia.
      * intros p i _ _. cbn [cdat]. fold (Bc p i). rewrite BP. apply DB.
    + eapply Rle_trans; [exact N2|]. right. apply sumn_ext. intros i _. rewrite Rmult_assoc. f_equal. rewrite <- sumn_scal. apply sumn_ext. intros p _. cbn [cdat]. fold (Bc p i). rewrite BP. reflexivity.
Qed.


Lemma rd_uhat u eta rd pw compute b ej ec um em gam th F model ns M l c j n lam :
  rounding u eta rd -> 0 < u <= / 10000 -> 0 <= eta -> built_rd u eta rd pw compute b -> let g := vgeom (su (bsve b)) in
  1000 * eta <= u * sqrt (bbeta b) -> INR (gnseg g) * u <= / 200 ->
  library_near (gorder g) (gorder g * gnseg g) u ej ec um em gam th F -> small_library ej ec um em gam ->
  klam (bkernel b) = Some lam -> ft_call_rd rd F model (buhat b) ns = Ok M ->
  (l < length (bs b))%nat -> nth_error (vcols (su (bsve b))) l = Some c -> nth_error ns j = Some n -> Rabs (IZR n) < rd (40 * lam) ->
  exists v w, entry M l j = Some v /\
    is_fourier (fun t => PI * IZR n * t / bbeta b) (fun t => sqrt (2 / bbeta b) * cval (ideal_geom g) c (2 * t / bbeta b - 1)) 0 (bbeta b) w /\
    Cmod (Cminus v w) <= uhat_error u eta (constant_error u ej ec um em gam) th (bbeta b) g c n.
Proof.
  intros Hrd Hu He Hb g Fb Fn HF Hs Kl HM Hl Hc Hn Hx.
  destruct (built_rd_inv u eta rd pw compute b Hb) as (q & e & ms & lam' & f & Pb & Pw & Ex & Hln & _ & _ & _ & _ & _ & _ & _ & Kl' & _ & F0 & F').
  rewrite Kl in Kl'. injection Kl' as <-. destruct Ex as (Su & _ & Lu & _). destruct Su as (Hg & H1 & H2 & Hfl & Ho & Hlo). fold g in Hg, H1, H2, Hfl, Ho, Hlo.
  destruct (ft_slice_some _ _ _ _ (Z.of_nat (length (bs b))) F0) as (f' & E' & G & K & _ & A). rewrite E' in F'. injection F' as F'. rewrite F' in *. clear F' f' E'.
  cbn [full_rd vgeom] in G. fold g in G. rewrite slice_nat in K. cbn [full_rd vcols] in K. set (q' := rd (sqrt (bbeta b))) in *.
  set (c' := Col (fun k i => rd (q' * cdat c k i)) (csym c)).
  assert (Ec : nth_error (fcols (buhat b)) l = Some c'). { rewrite K, nth_error_firstn by exact Hl. unfold scaled_cols_rd. rewrite nth_error_map, Hc. reflexivity. }
  apply (uhat_near u eta rd (bsve b) (bbeta b) ej ec um em gam th F model (buhat b) ns M l c j n (rd (40 * lam))); auto. repeat (split; [assumption|]). assumption.
Qed.

(** * Success *)
Lemma rd_zero u eta rd : rounding u eta rd -> rd 0 = 0.
Proof. intros (_ & A & B). specialize (A 0 (Rle_refl 0)). specialize (B 0 (Rle_refl 0)). lra. Qed.

Lemma rd_succeeds u eta rd pw compute st beta wmax e ker r :
  rounding u eta rd -> 0 < u <= / 10000 -> 0 <= eta <= / 10 ^ 12 -> expansion_near u eta r -> st = "F"%string \/ st = "B"%string ->
  0 < beta -> 0 < wmax -> fair_scale u eta (beta / 2) (vgeom (su r)) -> fair_scale u eta wmax (vgeom (sv r)) ->
  tolerated u (beta / 2) 1 (vgeom (su r)) -> tolerated u wmax 0 (vgeom (sv r)) ->
  0 <= e -> (1 + u) * (e * nth 0 (ss r) 0) + eta <= nth 0 (ss r) 0 ->
  (ker = None \/ exists k, ker = Some k /\ klam k = Some (rd (beta * wmax))) ->
  exists b, basis_init_rd rd pw compute st beta wmax (Some e) None ker (Some r) = Ok b /\ bsve b = r /\ bbeta b = beta /\ bwmax b = wmax /\ bstat b = st /\
    klam (bkernel b) = Some (rd (beta * wmax)).
Proof.
  intros Hrd Hu He Ex Hst Hb Hw Fu Fv Tu Tv He0 Hle Hk. pose proof Ex as (Su & Sv & Lu & Lv & Hs & P & Ni). rewrite Forall_forall in P.
  assert (Ls : (0 < length (ss r))%nat) by (destruct (ss r); [easy|cbn; lia]). assert (P0 : 0 < nth 0 (ss r) 0) by (apply P, nth_In; lia).
  assert (K : exists k, get_kernel_rd rd st (rd (beta * wmax)) ker = Ok k /\ klam k = Some (rd (beta * wmax))).
  { unfold get_kernel_rd. replace (stat_in st) with true by (destruct Hst as [-> | ->]; reflexivity). cbn [negb]. destruct Hk as [->|(k & -> & Kl)]; [exists (logistic (rd (beta * wmax))); split; reflexivity|].
    exists k. rewrite Kl. split; [|reflexivity]. unfold lam_close_rd. rewrite Rminus_eq_0, (rd_zero _ _ _ Hrd), Rabs_R0, (proj2 (Rleb_true _ _)); [reflexivity|].
    apply (proj1 (proj2 Hrd)). rewrite Rplus_0_l. apply (proj1 (proj2 Hrd)). apply Rmult_le_pos; [apply (proj1 (proj2 Hrd)); lra|apply Rabs_pos]. }
  destruct K as (k & K & Kl). assert (Q : exists q, even_odd st = Ok q) by (destruct Hst as [-> | ->]; eexists; reflexivity). destruct Q as [q Q].
  set (n := part_size (ss r) (cut_eps rd e (ss r)) None).
  assert (Pn : (0 < n)%nat).
  { unfold n. cbn [part_size]. unfold nabove, cut_eps. replace (rd (e * nth 0 (ss r) 0) / nth 0 (ss r) 0 * nth 0 (ss r) 0) with (rd (e * nth 0 (ss r) 0)) by (field; lra).
    assert (Le : rd (e * nth 0 (ss r) 0) <= nth 0 (ss r) 0). { assert (Pt : 0 <= e * nth 0 (ss r) 0) by (apply Rmult_le_pos; lra). pose proof (proj1 Hrd (e * nth 0 (ss r) 0)) as A. rewrite (Rabs_pos_eq _ Pt) in A. apply Rabs_le_between in A. lra. }
    destruct (ss r) as [|s0 st0]; [easy|]. cbn [nth] in *. cbn [filter]. rewrite (proj2 (Rleb_true _ _) Le). cbn [length]. lia. }
  assert (HT : 0 < beta / 2) by lra.
  assert (H1 : Rabs (rd (beta / 2) - beta / 2) <= u * (beta / 2) + eta) by (pose proof (proj1 Hrd (beta / 2)) as A; rewrite (Rabs_pos_eq (beta / 2)) in A by lra; exact A).
  assert (H2 : Rabs (wmax - wmax) <= u * wmax + eta). { rewrite Rminus_eq_0, Rabs_R0. assert (0 <= u * wmax) by (apply Rmult_le_pos; lra). lra. }
  destruct (basis_rd_ok u eta rd pw compute st beta wmax (Some e) None ker (Some r) k r (rd (beta * wmax)) q e n) as (f & f' & E); auto; try lra.
  - exact (rescaled_ok u eta rd Hrd Hu (beta / 2) 1 (rd (beta / 2)) (fun x => rd (x + 1)) HT H1 (fun x => proj1 Hrd (x + 1)) (take n (su r)) Su Fu (proj2 He) Tu).
  - exact (rescaled_ok u eta rd Hrd Hu wmax 0 wmax (fun x => x) Hw H2 (shift0 u eta Hu (proj1 He)) (take n (sv r)) Sv Fv (proj2 He) Tv).
  - exists (the_basis_rd rd pw st beta wmax k r n f f'). split; [exact E|]. cbn [the_basis_rd bsve bbeta bwmax bstat bkernel]. auto.
Qed.

(** * Exact arithmetic *)
Lemma poly_given_id order nseg dat knots dx symm : poly_given_rd (fun x => x) order nseg dat knots dx symm = poly_init order nseg dat knots (Some dx) (Some symm).
Proof.
  unfold poly_given_rd, poly_init. destruct (negb _); [reflexivity|]. destruct (negb _); [reflexivity|]. destruct (Nat.eqb (length symm) (length dat)); [|reflexivity]. cbn [negb bind].
  rewrite map_id. change (allclose_rd (fun x => x) dx (diffs knots)) with (allclose dx (diffs knots)). destruct (_ && _); reflexivity.
Qed.
Lemma init_exact compute st beta wmax eps ms ker sve : basis_init_rd (fun x => x) powerRZ compute st beta wmax eps ms ker sve = basis_init compute st beta wmax eps ms ker sve.
Proof.
  unfold basis_init_rd, basis_init. destruct (negb _); [reflexivity|]. destruct (negb _); [reflexivity|].
  assert (E : get_kernel_rd (fun x => x) st (beta * wmax) ker = get_kernel st (beta * wmax) ker).
  { unfold get_kernel_rd, get_kernel. destruct (negb _); [reflexivity|]. destruct ker as [k|]; [|reflexivity]. destruct (klam k); [|reflexivity]. unfold lam_close_rd, lam_close. rewrite Rplus_0_l. reflexivity. }
  rewrite E. destruct (get_kernel _ _ _) as [k|]; [|reflexivity]. cbn [bind]. destruct (match sve with Some r => Ok r | None => _ end) as [r|]; [|reflexivity]. cbn [bind].
  change (part_rd (fun x => x) r eps ms) with (part r eps ms). destruct (part r eps ms) as [[[u0 s] v0]|]; [|reflexivity]. cbn [bind].
  destruct (match s with [] => _ | _ :: _ => _ end); [|reflexivity]. cbn [bind]. unfold rescaled_rd, rescaled. rewrite !poly_given_id.
  reflexivity.
Qed.

(** * End points *)
Lemma rd_ends u eta rd pw compute b : rounding u eta rd -> built_rd u eta rd pw compute b ->
  rd 2 = 2 -> rd (bbeta b / 2) = bbeta b / 2 -> rd (bbeta b) = bbeta b -> rd (bwmax b) = bwmax b -> rd (- bwmax b) = - bwmax b ->
  gxmin (vgeom (bu b)) = 0 /\ gxmax (vgeom (bu b)) = bbeta b /\ gxmin (vgeom (bv b)) = - bwmax b /\ gxmax (vgeom (bv b)) = bwmax b.
Proof.
  intros Hrd Hb R2 Rh Rb Rw Rn. destruct (built_rd_inv u eta rd pw compute b Hb) as (q & e & ms & lam & f & Pb & Pw & Ex & _ & _ & _ & Eu & _ & Ev & _).
  destruct Ex as (Su & Sv & _). rewrite Eu, Ev. cbn [vgeom].
  pose proof (moved_knot u eta rd (rd (bbeta b / 2)) (fun x => rd (x + 1)) (su (bsve b)) Su) as Ku. pose proof (moved_knot u eta rd (bwmax b) (fun x => x) (sv (bsve b)) Sv) as Kv.
  destruct Su as (_ & X1 & X2 & _). destruct Sv as (_ & Y1 & Y2 & _). unfold gxmin, gxmax in *.
  pose proof (Ku 0%nat ltac:(lia)) as U0. pose proof (Ku _ (le_n _)) as U1. pose proof (Kv 0%nat ltac:(lia)) as V0. pose proof (Kv _ (le_n _)) as V1. unfold knot in *.
  rewrite X1 in U0. rewrite X2 in U1. rewrite Y1 in V0. rewrite Y2 in V1. cbv beta in *.
  split; [|split; [|split]].
  - etransitivity; [exact U0|]. replace (-1 + 1) with 0 by ring. rewrite (rd_zero _ _ _ Hrd), Rmult_0_r. apply (rd_zero _ _ _ Hrd).
  - etransitivity; [exact U1|]. replace (1 + 1) with 2 by ring. rewrite R2, Rh. replace (bbeta b / 2 * 2) with (bbeta b) by field. exact Rb.
  - etransitivity; [exact V0|]. replace (bwmax b * -1) with (- bwmax b) by ring. exact Rn.
  - etransitivity; [exact V1|]. rewrite Rmult_1_r. exact Rw.
Qed.
