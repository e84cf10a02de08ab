(** Slicing and rescaling a basis, validation, and the pair of bases. *)
From Coq Require Import Reals ZArith Arith Bool Lra Lia String Ascii.
From Coquelicot Require Import Coquelicot.
From Coq Require Import List Sorting.Sorted Permutation.
From Verif.Model Require Import Base Util Num Roots Poly FT SVE Basis.
From Verif.Spec Require Import SPoly SFT SSVE SBasis.
From Verif.Proofs Require Import BaseFacts UtilFacts IntFacts PPolyFacts PPolyInt SVEFacts FTCall FTProps
  BasisFacts BasisInit BasisProps.
Import ListNotations.
Open Scope R_scope.
Notation length := List.length.

Lemma even_odd_any st q : even_odd st = Ok q -> q <> FAny.
Proof. unfold even_odd. destruct (String.eqb st "F"); [congruence|]. destruct (String.eqb st "B"); congruence. Qed.

Lemma lam_close_refl l : lam_close l l = true.
Proof.
  unfold lam_close. apply Rleb_true. replace (l - l) with 0 by ring. rewrite Rabs_R0.
  apply Rmult_le_pos; [lra|apply Rabs_pos].
Qed.

Lemma lam_close_pos l L : 0 < L -> lam_close l L = true -> 0 < l.
Proof.
  unfold lam_close. intros HL H. apply Rleb_true in H. rewrite (Rabs_pos_eq L) in H by lra.
  assert (4 / 10 ^ 16 * L <= L / 2) by lra.
  unfold Rabs in H. destruct (Rcase_abs (l - L)); lra.
Qed.

Lemma get_kernel_stat st lam ker k : get_kernel st lam ker = Ok k -> stat_in st = true.
Proof. unfold get_kernel. destruct (stat_in st); auto. discriminate. Qed.

Lemma get_kernel_pos st L ker k lam : 0 < L -> get_kernel st L ker = Ok k -> klam k = Some lam -> 0 < lam.
Proof.
  intros HL. unfold get_kernel. destruct (negb (stat_in st)); [discriminate|]. destruct ker as [k'|].
  - destruct (klam k') as [l|] eqn:E.
    + destruct (lam_close l L) eqn:Ec; [|discriminate]. intros H. injection H as <-. rewrite E. intros H; injection H as <-.
      apply (lam_close_pos l L); auto.
    + intros H. injection H as <-. congruence.
  - intros H. injection H as <-. simpl. intros H; injection H as <-. auto.
Qed.

Section Ops.
Variable compute : kern -> option R -> res sve_result.

(** A built basis is one of the explicit ones. *)
Lemma built_inv b : built compute b ->
  exists lam q f f', 0 < bbeta b /\ 0 < bwmax b /\ sve_ok (bsve b) /\
    get_kernel (bstat b) (bbeta b * bwmax b) (Some (bkernel b)) = Ok (bkernel b) /\
    klam (bkernel b) = Some lam /\ 0 < lam /\ even_odd (bstat b) = Ok q /\ (0 < bsize b <= length (ss (bsve b)))%nat /\
    ft_init (full_u (bsve b) (bbeta b)) q (AsympAt (40 * lam)) None = Ok f /\ ft_slice f (Z.of_nat (bsize b)) = Ok f' /\
    b = the_basis (bstat b) (bbeta b) (bwmax b) (bkernel b) (bsve b) (bsize b) f f'.
Proof.
  intros (st & beta & wmax & eps & ms & ker & sve & H & Hok & Hw).
  destruct (basis_init_inv _ _ _ _ _ _ _ _ _ H Hok Hw)
    as (k & r & lam & q & e & n & f & f' & Hb & Hk & Hr & Hokr & He & Hfl & Hn & Hnl & Hlam & Hq & Ef & Ef' & ->).
  pose proof (the_basis_size st beta wmax k r n f f' ltac:(lia)) as Hs.
  exists lam, q, f, f'. rewrite !Hs. cbn [the_basis bstat bbeta bwmax bsve bkernel].
  assert (0 < beta * wmax) by (apply Rmult_lt_0_compat; auto).
  repeat match goal with |- _ /\ _ => split end; auto; try lia.
  - apply (kernel_again _ _ ker); auto.
  - apply (get_kernel_pos st (beta * wmax) ker k lam); auto.
Qed.

Lemma first_of_eq b b' st beta wmax k r q lam n m f f1 f2 :
  sve_ok r -> ft_init (full_u r beta) q (AsympAt (40 * lam)) None = Ok f -> q <> FAny ->
  ft_slice f (Z.of_nat n) = Ok f1 -> ft_slice f (Z.of_nat m) = Ok f2 -> (m <= n)%nat ->
  b = the_basis st beta wmax k r n f f1 -> b' = the_basis st beta wmax k r m f f2 -> first_of m b b'.
Proof. intros H1 H2 H3 H4 H5 H6 -> ->. apply (basis_prefix st beta wmax k r q lam n m f f1 f2); auto. Qed.

(** Making a basis of a given size from the parts of another. *)
Lemma remake b beta wmax e n ms : built compute b -> 0 < beta -> 0 < wmax ->
  get_kernel (bstat b) (beta * wmax) (Some (bkernel b)) = Ok (bkernel b) ->
  seps (bsve b) = Some e -> ~ float_below ms (nabove e (ss (bsve b))) ->
  n = part_size (ss (bsve b)) e ms -> (0 < n)%nat ->
  exists b', basis_init compute (bstat b) beta wmax None ms (Some (bkernel b)) (Some (bsve b)) = Ok b' /\
    built compute b' /\ bsize b' = n /\ bstat b' = bstat b /\ bbeta b' = beta /\ bwmax b' = wmax /\
    bkernel b' = bkernel b /\ bsve b' = bsve b /\
    exists lam q f f', klam (bkernel b) = Some lam /\ even_odd (bstat b) = Ok q /\
      ft_init (full_u (bsve b) beta) q (AsympAt (40 * lam)) None = Ok f /\
      ft_slice f (Z.of_nat n) = Ok f' /\
      b' = the_basis (bstat b) beta wmax (bkernel b) (bsve b) n f f'.
Proof.
  intros Hb Hbe Hwm Hk He Hfl Hn Hpos.
  destruct (built_inv b Hb) as (lam & q & f0 & f0' & _ & _ & Hok & _ & Hl & Hlp & Hq & _).
  destruct (basis_init_ok compute (bstat b) beta wmax None ms (Some (bkernel b)) (Some (bsve b)) (bkernel b)
              (bsve b) lam q e n Hbe Hwm Hk eq_refl Hok He Hfl Hn Hpos Hl Hq) as (f & f' & Hf & Hf' & HI).
  exists (the_basis (bstat b) beta wmax (bkernel b) (bsve b) n f f').
  pose proof (part_size_le (ss (bsve b)) e ms) as Hle. rewrite <- Hn in Hle.
  repeat match goal with |- _ /\ _ => split end; auto.
  - exists (bstat b), beta, wmax, None, ms, (Some (bkernel b)), (Some (bsve b)). auto.
  - apply the_basis_size. auto.
  - exists lam, q, f, f'. auto.
Qed.

Lemma prefix_slice_size i stop : prefix_slice i stop -> slice_to_size i = Ok stop.
Proof. intros (a & s & -> & [->| ->] & [->| ->]); reflexivity. Qed.

Lemma nabove_le' e s : (nabove e s <= length s)%nat.
Proof. apply nabove_le. Qed.

(** Which size a slice has. *)
Lemma slice_basis b e i stop n : built compute b -> seps (bsve b) = Some e -> prefix_slice i stop ->
  ~ float_below stop (nabove e (ss (bsve b))) -> n = part_size (ss (bsve b)) e stop -> (0 < n)%nat ->
  exists b', basis_getitem compute b i = Ok b' /\ built compute b' /\ bsize b' = n /\ same_setting b b' /\
    ((n <= bsize b)%nat -> first_of n b b') /\ ((bsize b <= n)%nat -> first_of (bsize b) b' b).
Proof.
  intros Hb He Hi Hfl Hn Hpos. pose proof (built_inv b Hb)
    as (lam & q & f & f' & Hbe & Hwm & Hok & Hk & Hl & Hlp & Hq & Hsz & Hf & Hf' & Eb).
  destruct (remake b (bbeta b) (bwmax b) e n stop Hb Hbe Hwm Hk He Hfl Hn Hpos)
    as (b' & HI & Hb' & Hs' & E1 & E2 & E3 & E4 & E5 & lam1 & q1 & g & g' & Hl1 & Hq1 & Hg & Hg' & Eb').
  rewrite Hl in Hl1. injection Hl1 as <-. rewrite Hq in Hq1. injection Hq1 as <-. rewrite Hf in Hg. injection Hg as <-.
  exists b'. unfold basis_getitem. rewrite (prefix_slice_size i stop Hi). cbn [bind].
  split; [exact HI|]. split; auto. split; auto. split; [repeat split; auto|].
  pose proof (even_odd_any _ _ Hq) as Hqa.
  split; intros Hle.
  - apply (first_of_eq b b' (bstat b) (bbeta b) (bwmax b) (bkernel b) (bsve b) q lam (bsize b) n f f' g'); auto.
  - apply (first_of_eq b' b (bstat b) (bbeta b) (bwmax b) (bkernel b) (bsve b) q lam n (bsize b) f g' f'); auto.
Qed.

Lemma slice_size b e i stop : built compute b -> seps (bsve b) = Some e -> e <= 1 -> prefix_slice i stop ->
  (stop = None \/ exists z, stop = Some (PyInt z) /\ (0 < z)%Z) ->
  let N := nabove e (ss (bsve b)) in
  let n := match stop with Some (PyInt z) => Nat.min (Z.to_nat z) N | _ => N end in
  exists b', basis_getitem compute b i = Ok b' /\ built compute b' /\ bsize b' = n /\ same_setting b b' /\
    ((n <= bsize b)%nat -> first_of n b b') /\ ((bsize b <= n)%nat -> first_of (bsize b) b' b).
Proof.
  intros Hb He He1 Hi Hs N n. destruct (built_inv b Hb) as (lam & q & f & f' & _ & _ & Hok & _).
  pose proof (nabove_pos e (bsve b) Hok He1) as Hpos. fold N in Hpos.
  destruct Hs as [->|(z & -> & Hz)].
  - apply (slice_basis b e i None N); auto.
  - apply (slice_basis b e i (Some (PyInt z))); auto.
    + cbn [part_size]. rewrite (proj2 (Z.ltb_ge z 0)) by lia. reflexivity.
    + apply Nat.min_glb_lt; auto. lia.
Qed.

(** Too small or non-positive bounds. *)
Lemma init_empty st beta wmax eps ms ker r e k : 0 < beta -> 0 < wmax -> get_kernel st (beta * wmax) ker = Ok k ->
  sve_ok r -> eff_eps eps (seps r) = Some e -> ~ float_below ms (nabove e (ss r)) -> part_size (ss r) e ms = 0%nat ->
  basis_init compute st beta wmax eps ms ker (Some r) = Raise IndexError.
Proof.
  intros Hb Hw Hk Hok He Hfl H0. unfold basis_init.
  rewrite (proj2 (Rltb_true 0 beta) Hb). rewrite (proj2 (Rleb_true 0 wmax)) by lra. cbn [negb].
  rewrite Hk. cbn [bind]. destruct Hok as (_ & _ & _ & _ & _ & _ & Lu & Lv & Hs & _).
  rewrite (part_val r eps ms e Lu Lv Hs He Hfl), H0. reflexivity.
Qed.

Lemma slice_nonpositive b e i z : built compute b -> seps (bsve b) = Some e -> (z <= 0)%Z ->
  prefix_slice i (Some (PyInt z)) ->
  let n := (Z.of_nat (length (ss (bsve b))) + z)%Z in
  ((z < 0)%Z -> (0 < n)%Z -> exists b', basis_getitem compute b i = Ok b' /\ bsize b' = Z.to_nat n /\ same_setting b b') /\
  (z = 0%Z \/ (n <= 0)%Z -> basis_getitem compute b i = Raise IndexError).
Proof.
  intros Hb He Hz Hi n. split.
  - intros Hz' Hn. destruct (slice_basis b e i (Some (PyInt z)) (Z.to_nat n)) as (b' & H1 & _ & H2 & H3 & _); auto; try lia.
    + cbn [part_size]. rewrite (proj2 (Z.ltb_lt z 0)) by lia. reflexivity.
    + exists b'. auto.
  - intros Hn. destruct (built_inv b Hb) as (lam & q & f & f' & Hbe & Hwm & Hok & Hk & _).
    unfold basis_getitem. rewrite (prefix_slice_size _ _ Hi). cbn [bind].
    apply (init_empty _ _ _ _ _ _ _ e (bkernel b)); auto. cbn [part_size].
    destruct (z <? 0)%Z eqn:E; [apply Z.ltb_lt in E|apply Z.ltb_ge in E].
    + unfold n in Hn. lia.
    + replace z with 0%Z by lia. reflexivity.
Qed.

Lemma slice_rejected b i :
  ((exists z, i = IdxInt z) \/
   (exists start stop step, i = IdxSlice start stop step /\
      ((exists a, start = Some a /\ a <> 0%Z) \/ (exists a, step = Some a /\ a <> 1%Z)))) ->
  basis_getitem compute b i = Raise ValueError.
Proof.
  intros [[z ->]|(a & s & t & -> & H)]; auto. unfold basis_getitem, slice_to_size.
  destruct H as [(x & -> & Hx)|(x & -> & Hx)].
  - rewrite (proj2 (Z.eqb_neq x 0) Hx). reflexivity.
  - destruct a as [y|]; [destruct (y =? 0)%Z; cbn [negb]; [|reflexivity]|];
      rewrite (proj2 (Z.eqb_neq x 1) Hx); reflexivity.
Qed.

(** The outcome of a slice does not depend on earlier slices. *)
Lemma slice_again b i b' : built compute b -> basis_getitem compute b i = Ok b' ->
  built compute b' /\ same_setting b b'.
Proof.
  intros Hb H. destruct (built_inv b Hb) as (lam & q & f & f' & Hbe & Hwm & Hok & Hk & _).
  unfold basis_getitem in H. destruct (slice_to_size i) as [n|]; [|discriminate]. cbn [bind] in H.
  assert (Hr : bsve b' = bsve b).
  { unfold basis_init in H.
    destruct (negb _); [discriminate|]. destruct (negb _); [discriminate|].
    destruct (get_kernel _ _ _) as [k|]; [|discriminate]. cbn [bind] in H.
    destruct (part _ _ _) as [[[u s] v]|]; [|discriminate]. cbn [bind] in H.
    destruct (match s with [] => Raise IndexError | s0 :: _ => _ end); [|discriminate]. cbn [bind] in H.
    destruct (rescaled _ _ _); [|discriminate]. cbn [bind] in H.
    destruct (rescaled _ _ _); [|discriminate]. cbn [bind] in H.
    destruct (klam k); [|discriminate]. destruct (even_odd _); [|discriminate]. cbn [bind] in H.
    destruct (ft_init _ _ _ _); [|discriminate]. cbn [bind] in H. destruct (ft_slice _ _); [|discriminate].
    injection H as <-. reflexivity. }
  assert (Hok' : sve_ok (bsve b')) by (rewrite Hr; auto).
  destruct (basis_init_inv _ _ _ _ _ _ _ _ _ H Hok' Hwm)
    as (k & r & l & q1 & e & m & g & g' & _ & Hk' & Hr' & _ & _ & _ & _ & _ & _ & _ & _ & _ & E).
  rewrite Hk in Hk'. injection Hk' as <-. injection Hr' as <-.
  split; [|rewrite E; repeat split; auto].
  exists (bstat b), (bbeta b), (bwmax b), None, n, (Some (bkernel b)), (Some (bsve b)). auto.
Qed.

Lemma slice_same b b' j : same_setting b b' -> basis_getitem compute b' j = basis_getitem compute b j.
Proof. intros (E1 & E2 & E3 & E4 & E5). unfold basis_getitem. rewrite E1, E2, E3, E4, E5. auto. Qed.

Lemma slices_last is : forall b i b', built compute b -> getitems compute b (is ++ [i]) = Ok b' ->
  basis_getitem compute b i = Ok b'.
Proof.
  induction is as [|j is IH]; intros b i b' Hb H.
  - simpl in H. destruct (basis_getitem compute b i); auto.
  - cbn [app getitems] in H. destruct (basis_getitem compute b j) as [b1|] eqn:E; [|discriminate]. cbn [bind] in H.
    destruct (slice_again b j b1 Hb E) as [Hb1 Hs]. rewrite <- (slice_same b b1 i Hs). apply IH; auto.
Qed.

(** ** rescale *)
Lemma rescale_ok b e nb : built compute b -> seps (bsve b) = Some e -> e <= 1 -> 0 < nb ->
  exists b' lam, rescale compute b nb = Ok b' /\ built compute b' /\ klam (bkernel b) = Some lam /\
    bbeta b' = nb /\ bbeta b' * bwmax b' = lam /\ bstat b' = bstat b /\ bkernel b' = bkernel b /\ bsve b' = bsve b /\
    bsize b' = Nat.min (bsize b) (nabove e (ss (bsve b))).
Proof.
  intros Hb He He1 Hnb. destruct (built_inv b Hb) as (lam & q & f & f' & Hbe & Hwm & Hok & Hk & Hl & Hlp & Hq & Hsz & _).
  pose proof (nabove_pos e (bsve b) Hok He1) as Hpos.
  assert (Hprod : nb * (lam / nb) = lam) by (field; lra).
  assert (Hk' : get_kernel (bstat b) (nb * (lam / nb)) (Some (bkernel b)) = Ok (bkernel b)).
  { rewrite Hprod. unfold get_kernel. rewrite (get_kernel_stat _ _ _ _ Hk). cbn [negb]. rewrite Hl, lam_close_refl. auto. }
  destruct (remake b nb (lam / nb) e (Nat.min (bsize b) (nabove e (ss (bsve b)))) (Some (PyInt (Z.of_nat (bsize b)))))
    as (b' & HI & Hb' & Hs' & E1 & E2 & E3 & E4 & E5 & _); auto.
  - apply Rdiv_lt_0_compat; auto.
  - cbn [part_size]. rewrite (proj2 (Z.ltb_ge _ 0)) by lia. rewrite Nat2Z.id. auto.
  - apply Nat.min_glb_lt; lia.
  - exists b', lam. unfold rescale. rewrite Hl. rewrite (proj2 (Reqb_false nb 0)) by lra.
    rewrite E2, E3. repeat match goal with |- _ /\ _ => split end; auto.
Qed.

Lemma rescale_errors b nb : built compute b ->
  (nb = 0 -> rescale compute b nb = Raise ZeroDivisionError) /\ (nb < 0 -> rescale compute b nb = Raise ValueError).
Proof.
  intros Hb. destruct (built_inv b Hb) as (lam & q & f & f' & _ & _ & _ & _ & Hl & _). unfold rescale. rewrite Hl.
  split.
  - intros ->. rewrite (proj2 (Reqb_true 0 0)); auto.
  - intros Hn. rewrite (proj2 (Reqb_false nb 0)) by lra. unfold basis_init.
    rewrite (proj2 (Rltb_false 0 nb)) by lra. reflexivity.
Qed.

Lemma rescales_size ts : forall b e, built compute b -> seps (bsve b) = Some e -> e <= 1 -> Forall (fun t => 0 < t) ts ->
  ts <> [] -> exists b' lam, rescales compute b ts = Ok b' /\ built compute b' /\ klam (bkernel b) = Some lam /\
    bbeta b' = last ts 0 /\ bbeta b' * bwmax b' = lam /\ bstat b' = bstat b /\ bkernel b' = bkernel b /\
    bsve b' = bsve b /\ bsize b' = Nat.min (bsize b) (nabove e (ss (bsve b))).
Proof.
  induction ts as [|t ts IH]; intros b e Hb He He1 HF Hne; [easy|]. inversion HF as [|? ? Ht HF']; subst.
  destruct (rescale_ok b e t Hb He He1 Ht) as (b1 & lam & H1 & Hb1 & Hl & E1 & E2 & E3 & E4 & E5 & E6).
  cbn [rescales]. rewrite H1. cbn [bind]. destruct ts as [|t2 ts].
  - exists b1, lam. repeat match goal with |- _ /\ _ => split end; auto.
  - destruct (IH b1 e) as (b' & lam' & H2 & Hb' & Hl' & F1 & F2 & F3 & F4 & F5 & F6); auto.
    + rewrite E5; auto.
    + discriminate.
    + rewrite E4, Hl in Hl'. injection Hl' as <-.
      exists b', lam. repeat match goal with |- _ /\ _ => split end; try congruence; auto.
      rewrite F6, E6, E5. lia.
Qed.

(** ** Validation *)
Lemma init_rejects st beta wmax eps ms ker sve :
  beta <= 0 \/ wmax < 0 \/ ~ In st [""; "B"; "F"; "BF"]%string \/
  (exists k l, ker = Some k /\ klam k = Some l /\ 4 / 10 ^ 16 * Rabs (beta * wmax) < Rabs (l - beta * wmax)) ->
  basis_init compute st beta wmax eps ms ker sve = Raise ValueError.
Proof.
  intros H. unfold basis_init.
  destruct (Rltb 0 beta) eqn:E1; cbn [negb]; auto. destruct (Rleb 0 wmax) eqn:E2; cbn [negb]; auto.
  apply Rltb_true in E1. apply Rleb_true in E2. unfold get_kernel.
  destruct (stat_in st) eqn:E3; cbn [negb bind]; auto. apply stat_cases in E3.
  destruct H as [H|[H|[H|(k & l & -> & Hl & H)]]]; try lra.
  - exfalso. apply H. simpl. intuition.
  - rewrite Hl. unfold lam_close. rewrite (proj2 (Rleb_false _ _)); auto.
Qed.

Lemma init_ok_size st beta wmax eps ms ker r e : 0 < beta -> 0 < wmax -> sve_ok r ->
  eff_eps eps (seps r) = Some e -> e <= 1 -> ms = None \/ (exists z, ms = Some (PyInt z) /\ (0 < z)%Z) ->
  ~ float_below ms (nabove e (ss r)) /\ (0 < part_size (ss r) e ms)%nat /\
  part_size (ss r) e ms = match ms with Some (PyInt z) => Nat.min (Z.to_nat z) (nabove e (ss r)) | _ => nabove e (ss r) end /\
  (ker = None \/ (exists k l, ker = Some k /\ klam k = Some l /\ Rabs (l - beta * wmax) <= 4 / 10 ^ 16 * Rabs (beta * wmax)) ->
   stat_in st = true ->
   get_kernel st (beta * wmax) ker = Ok (match ker with None => logistic (beta * wmax) | Some k => k end)).
Proof.
  intros Hb Hw Hok He He1 Hms. pose proof (nabove_pos e r Hok He1) as Hpos.
  split; [destruct Hms as [->|(z & -> & _)]; simpl; auto|].
  assert (E : part_size (ss r) e ms = match ms with Some (PyInt z) => Nat.min (Z.to_nat z) (nabove e (ss r)) | _ => nabove e (ss r) end).
  { destruct Hms as [->|(z & -> & Hz)]; auto. cbn [part_size]. rewrite (proj2 (Z.ltb_ge z 0)) by lia. auto. }
  split; [|split; auto].
  - rewrite E. destruct Hms as [->|(z & -> & Hz)]; auto. apply Nat.min_glb_lt; auto. lia.
  - intros Hk Hst. unfold get_kernel. rewrite Hst. cbn [negb]. destruct Hk as [->|(k & l & -> & Hl & H)]; auto.
    rewrite Hl. unfold lam_close. rewrite (proj2 (Rleb_true _ _)); auto.
Qed.

Lemma init_accepts st beta wmax eps ms ker r e : 0 < beta -> 0 < wmax -> st = "F"%string \/ st = "B"%string ->
  (ker = None \/ exists k l, ker = Some k /\ klam k = Some l /\ Rabs (l - beta * wmax) <= 4 / 10 ^ 16 * Rabs (beta * wmax)) ->
  sve_ok r -> eff_eps eps (seps r) = Some e -> e <= 1 ->
  ms = None \/ (exists z, ms = Some (PyInt z) /\ (0 < z)%Z) ->
  exists b, basis_init compute st beta wmax eps ms ker (Some r) = Ok b /\ built compute b /\
    bstat b = st /\ bbeta b = beta /\ bwmax b = wmax /\ bsve b = r /\
    bkernel b = match ker with None => logistic (beta * wmax) | Some k => k end /\
    bsize b = match ms with Some (PyInt z) => Nat.min (Z.to_nat z) (nabove e (ss r)) | _ => nabove e (ss r) end.
Proof.
  intros Hb Hw Hst Hk Hok He He1 Hms.
  destruct (init_ok_size st beta wmax eps ms ker r e Hb Hw Hok He He1 Hms) as (Hfl & Hpos & Hn & HK).
  assert (Hin : stat_in st = true) by (apply stat_cases; tauto). specialize (HK Hk Hin).
  set (k := match ker with None => logistic (beta * wmax) | Some k => k end) in *.
  assert (Hl : exists lam, klam k = Some lam).
  { unfold k. destruct Hk as [->|(k0 & l & -> & Hl & _)]; eexists; eauto. reflexivity. }
  destruct Hl as [lam Hl].
  assert (Hq : exists q, even_odd st = Ok q) by (destruct Hst as [->| ->]; eexists; reflexivity). destruct Hq as [q Hq].
  destruct (basis_init_ok compute st beta wmax eps ms ker (Some r) k r lam q e _ Hb Hw HK eq_refl Hok He Hfl eq_refl Hpos Hl Hq)
    as (f & f' & Hf & Hf' & HI).
  eexists. split; [exact HI|]. split.
  - exists st, beta, wmax, eps, ms, ker, (Some r). auto.
  - repeat match goal with |- _ /\ _ => split end; auto.
    rewrite the_basis_size by apply part_size_le. auto.
Qed.

Lemma init_keyerror st beta wmax eps ms ker r e : 0 < beta -> 0 < wmax -> st = ""%string \/ st = "BF"%string ->
  (ker = None \/ exists k l, ker = Some k /\ klam k = Some l /\ Rabs (l - beta * wmax) <= 4 / 10 ^ 16 * Rabs (beta * wmax)) ->
  sve_ok r -> eff_eps eps (seps r) = Some e -> e <= 1 ->
  ms = None \/ (exists z, ms = Some (PyInt z) /\ (0 < z)%Z) ->
  basis_init compute st beta wmax eps ms ker (Some r) = Raise KeyError.
Proof.
  intros Hb Hw Hst Hk Hok He He1 Hms.
  destruct (init_ok_size st beta wmax eps ms ker r e Hb Hw Hok He He1 Hms) as (Hfl & Hpos & Hn & HK).
  assert (Hin : stat_in st = true) by (apply stat_cases; tauto). specialize (HK Hk Hin).
  set (k := match ker with None => logistic (beta * wmax) | Some k => k end) in *.
  assert (Hl : exists lam, klam k = Some lam).
  { unfold k. destruct Hk as [->|(k0 & l & -> & Hl & _)]; eexists; eauto. reflexivity. }
  destruct Hl as [lam Hl].
  assert (Hq : even_odd st = Raise KeyError) by (destruct Hst as [->| ->]; reflexivity).
  unfold basis_init. rewrite (proj2 (Rltb_true 0 beta) Hb). rewrite (proj2 (Rleb_true 0 wmax)) by lra. cbn [negb].
  rewrite HK. cbn [bind]. destruct Hok as (Fu & Fv & _ & _ & _ & _ & Lu & Lv & Hs & _).
  rewrite (part_val r eps ms e Lu Lv Hs He Hfl). set (n := part_size (ss r) e ms) in *. cbn [bind].
  destruct (ss r) as [|s0 sr] eqn:Es; [easy|]. destruct n as [|n]; [lia|]. cbn [firstn].
  match goal with |- context [if ?c then Ok ?a else Ok ?b] => replace (if c then Ok a else Ok b) with (Ok (if c then a else b)) by (destruct c; auto) end.
  cbn [bind].
  rewrite (rescaled_val (take (S n) (su r)) (beta / 2) (beta / 2)) by (try lra; try (exact (proj1 Fu)); intros; ring).
  cbn [bind].
  rewrite (rescaled_val (take (S n) (sv r)) 0 wmax) by (try lra; try (exact (proj1 Fv)); intros; ring).
  cbn [bind]. rewrite Hl, Hq. reflexivity.
Qed.

Lemma init_no_lambda st beta wmax eps ms k r e : 0 < beta -> 0 < wmax -> In st [""; "B"; "F"; "BF"]%string ->
  klam k = None -> sve_ok r -> eff_eps eps (seps r) = Some e -> e <= 1 ->
  ms = None \/ (exists z, ms = Some (PyInt z) /\ (0 < z)%Z) ->
  basis_init compute st beta wmax eps ms (Some k) (Some r) = Raise AttributeError.
Proof.
  intros Hb Hw Hst Hl Hok He He1 Hms.
  destruct (init_ok_size st beta wmax eps ms None r e Hb Hw Hok He He1 Hms) as (Hfl & Hpos & Hn & _).
  unfold basis_init. rewrite (proj2 (Rltb_true 0 beta) Hb). rewrite (proj2 (Rleb_true 0 wmax)) by lra. cbn [negb].
  unfold get_kernel. rewrite (proj2 (stat_cases st)) by (simpl in Hst; intuition). cbn [negb]. rewrite Hl.
  cbn [bind]. destruct Hok as (Fu & Fv & _ & _ & _ & _ & Lu & Lv & Hs & _).
  rewrite (part_val r eps ms e Lu Lv Hs He Hfl). set (n := part_size (ss r) e ms) in *. cbn [bind].
  destruct (ss r) as [|s0 sr] eqn:Es; [easy|]. destruct n as [|n]; [lia|]. cbn [firstn].
  match goal with |- context [if ?c then Ok ?a else Ok ?b] => replace (if c then Ok a else Ok b) with (Ok (if c then a else b)) by (destruct c; auto) end.
  cbn [bind].
  rewrite (rescaled_val (take (S n) (su r)) (beta / 2) (beta / 2)) by (try lra; try (exact (proj1 Fu)); intros; ring).
  cbn [bind].
  rewrite (rescaled_val (take (S n) (sv r)) 0 wmax) by (try lra; try (exact (proj1 Fv)); intros; ring).
  cbn [bind]. rewrite Hl. reflexivity.
Qed.

(** ** The pair *)
Lemma ft_init_freq p q a mo f : ft_init p q a mo = Ok f -> ffreq f = q.
Proof. intros H. apply ft_init_val in H. tauto. Qed.

Lemma ft_slice_freq f n f' : ft_slice f n = Ok f' -> ffreq f' = ffreq f.
Proof. unfold ft_slice. apply ft_init_freq. Qed.

Definition pair_rel (f b : basis) : Prop :=
  bstat f = "F"%string /\ bstat b = "B"%string /\ bbeta f = bbeta b /\ bwmax f = bwmax b /\
  bsve f = bsve b /\ bu f = bu b /\ bs f = bs b /\ bv f = bv b /\ bacc f = bacc b /\
  ffreq (buhat f) = FOdd /\ ffreq (buhat b) = FEven /\
  (forall rnd fuel npoints, default_tau rnd fuel f npoints = default_tau rnd fuel b npoints /\
                            default_omega rnd fuel f npoints = default_omega rnd fuel b npoints).

Lemma pair_shares beta wmax eps sve f b : 0 < wmax -> finite_temp_bases compute beta wmax eps sve = Ok (f, b) ->
  sve_ok (bsve f) -> pair_rel f b /\ bbeta f = beta /\ bwmax f = wmax /\
  match sve with Some r => bsve f = r | None => compute (logistic (beta * wmax)) eps = Ok (bsve f) end.
Proof.
  intros Hw H Hok. unfold finite_temp_bases in H.
  destruct (match sve with Some r => Ok r | None => compute (logistic (beta * wmax)) eps end) as [r|] eqn:Er; [|discriminate].
  cbn [bind] in H.
  destruct (basis_init compute "F" beta wmax eps None None (Some r)) as [f0|] eqn:Ef; [|discriminate]. cbn [bind] in H.
  destruct (basis_init compute "B" beta wmax eps None None (Some r)) as [b0|] eqn:Eb; [|discriminate]. cbn [bind] in H.
  injection H as -> ->.
  destruct (basis_init_inv _ _ _ _ _ _ _ _ _ Ef Hok Hw)
    as (k & r1 & lam & q & e & n & g & g' & Hb & Hk & Hr & Hokr & He & Hfl & Hn & Hnl & Hlam & Hq & Hg & Hg' & E).
  injection Hr as <-.
  destruct (basis_init_ok compute "B" beta wmax eps None None (Some r) k r lam FEven e n) as (h & h' & Hh & Hh' & HB); auto; try lia.
  rewrite Eb in HB. injection HB as ->. assert (q = FOdd) by (unfold even_odd in Hq; simpl in Hq; congruence). subst q. rewrite E.
  pose proof (ft_slice_freq _ _ _ Hg') as F1. rewrite (ft_init_freq _ _ _ _ _ Hg) in F1.
  pose proof (ft_slice_freq _ _ _ Hh') as F2. rewrite (ft_init_freq _ _ _ _ _ Hh) in F2.
  unfold pair_rel, default_tau, default_omega, npoints_or_size, bsize.
  cbn [the_basis bstat bbeta bwmax bsve bu bs bv bacc buhat].
  repeat match goal with |- _ /\ _ => split end; auto.
  destruct sve; injection Er as <- || idtac; auto.
Qed.

Lemma pair_exists beta wmax eps sve r e : 0 < beta -> 0 < wmax ->
  match sve with Some r => Ok r | None => compute (logistic (beta * wmax)) eps end = Ok r -> sve_ok r ->
  eff_eps eps (seps r) = Some e -> e <= 1 ->
  exists f b, finite_temp_bases compute beta wmax eps sve = Ok (f, b) /\ bsve f = r.
Proof.
  intros Hb Hw Hr Hok He He1. unfold finite_temp_bases. rewrite Hr. cbn [bind].
  destruct (init_accepts "F" beta wmax eps None None r e) as (f & Hf & _ & _ & _ & _ & Hrf & _); auto.
  destruct (init_accepts "B" beta wmax eps None None r e) as (b & Hb' & _); auto.
  rewrite Hf. cbn [bind]. rewrite Hb'. cbn [bind]. exists f, b. auto.
Qed.

Lemma basis_set_pair beta wmax eps sve :
  basis_set compute beta wmax eps sve = finite_temp_bases compute beta wmax eps sve.
Proof. destruct sve; reflexivity. Qed.
End Ops.
