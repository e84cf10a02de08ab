From Coq Require Import List ZArith Bool Reals Lia Lra Permutation Sorted Arith.
From Flocq Require Import Core.
From Verif.Model Require Import Base Roots Matsubara.
From Verif.Spec Require Import SRoots SMatsubara.
From Verif.Proofs Require Import BaseFacts RootsFacts RootsDiscr RootsExtr MatsubaraFacts.
Import ListNotations.
Open Scope Z_scope.

Lemma adjacent_in_l {X} (g : list X) a b : adjacent g a b -> In a g.
Proof. intros (l1 & l2 & ->). apply in_or_app; right; left; auto. Qed.

Lemma sign_changes_end q f grid po :
  search_grid grid ->
  exists x0, ends_with (fun fuel => ft_sign_changes fuel q f grid po) (finish q po x0) /\
    StronglySorted Z.lt x0 /\ Forall (fun x => 0 <= x) x0.
Proof.
  intros (Hs & Hl & Hp).
  destruct (find_all_discr_ok rsignbit (fun v => Reqb v 0) f grid Hs)
    as (rs & (n & Hn) & Hso & _ & _ & Hsound).
  exists rs. split; [|split; auto].
  - exists n. intros fuel Hf. unfold ft_sign_changes. rewrite Hn by auto. auto.
  - rewrite Forall_forall in *. intros r Hr.
    destruct (Hsound r Hr) as [[Hin _]|(a & b & Hab & _ & Hr' & _)]; auto.
    apply adjacent_in_l in Hab. apply Hp in Hab. lia.
Qed.

Lemma grid_ends (grid : list Z) : (2 <= length grid)%nat ->
  exists x0 x1 xl xl' l1 l2, grid = x0 :: x1 :: l1 /\ grid = l2 ++ [xl'; xl].
Proof.
  intros H. destruct grid as [|x0 [|x1 l1]]; simpl in H; try lia.
  destruct (rev (x0 :: x1 :: l1)) as [|xl [|xl' l2]] eqn:E.
  - apply (f_equal (@length _)) in E. rewrite rev_length in E. discriminate.
  - apply (f_equal (@length _)) in E. rewrite rev_length in E. discriminate.
  - exists x0, x1, xl, xl', l1, (rev l2). split; auto.
    apply (f_equal (@rev _)) in E. rewrite rev_involutive in E. rewrite E. simpl.
    rewrite <- app_assoc. reflexivity.
Qed.

Lemma extrema_end f grid :
  search_grid grid ->
  exists x0, ends_with (fun fuel => discrete_extrema fuel f grid) (Ok x0) /\
    Forall (fun x => 0 <= x) x0 /\
    (no_double_turn f grid -> StronglySorted Z.lt x0) /\
    ((exists a c b, adjacent3 grid a c b /\ turns f a c b) -> x0 <> []).
Proof.
  intros (Hs & Hl & Hp).
  destruct (grid_ends grid Hl) as (y0 & y1 & yl & yl' & l1 & l2 & E1 & E2).
  destruct (discrete_extrema_ok f grid y0 y1 yl yl' l1 l2 Hs E1 E2)
    as (rs & Hend & _ & _ & Hcomp & Hsound & Hord).
  exists rs. split; auto. split; [|split; auto].
  - rewrite Forall_forall in *. intros r Hr.
    destruct (Hsound r Hr) as [->|[->|(a & c & b & (m1 & m2 & Em) & _ & (Hr' & _))]].
    + apply Hp. rewrite E1. left; auto.
    + apply Hp. rewrite E2. apply in_or_app; right; right; left; auto.
    + assert (Ha : In a grid) by (rewrite Em; apply in_or_app; right; left; auto).
      apply Hp in Ha. lia.
  - intros (a & c & b & H1 & H2). destruct (Hcomp a c b H1 H2) as (r & Hr & _).
    intros E. rewrite E in Hr. destruct Hr.
Qed.

Lemma zunique_zero_symmetric wn : neg_closed wn -> symmetric (zunique (0 :: wn)).
Proof.
  intros H. apply neg_closed_symmetric; [apply zunique_sorted|].
  intros n. rewrite !zunique_in. intros [<-|Hn]; [left; auto|right; auto].
Qed.

(** What the returned points satisfy, before the warning is attached. *)
Definition points_ok (q : freq) (po : bool) (zero strict : Prop) (wn : list Z) : Prop :=
  Forall (parity_of q) wn /\
  (po = true -> Forall (fun n => 0 <= n) wn) /\
  (po = false -> symmetric wn) /\
  (zero -> In 0 wn) /\
  (strict -> StronglySorted Z.lt wn).

Lemma default_matsubara_end grid q uhat L po :
  search_grid grid -> uhat <> [] ->
  exists out, ends_with (fun fuel => default_matsubara fuel grid q uhat L false po) out /\
    let lr := l_requested q L in
    let spare := (lr < length uhat)%nat in
    let f := last uhat (fun _ => 0%R) in
    (forall wn warned, out = Ok (wn, warned) ->
       Forall (parity_of q) wn /\
       (po = true -> Forall (fun n => 0 <= n) wn) /\
       (po = false -> symmetric wn) /\
       (~ spare /\ q = Even -> In 0 wn) /\
       (spare \/ q = Even \/ no_double_turn f grid -> StronglySorted Z.lt wn) /\
       (warned = true <-> length wn <> (if po then Nat.div (lr + 1) 2 else lr))) /\
    (spare -> exists wn warned, out = Ok (wn, warned)) /\
    (~ spare -> no_double_turn f grid -> (exists a c b, adjacent3 grid a c b /\ turns f a c b) ->
       exists wn warned, out = Ok (wn, warned)).
Proof.
  intros Hg Hu. unfold default_matsubara. cbv zeta.
  set (lr := l_requested q L).
  set (expected := if po then ((lr + 1) / 2)%nat else lr).
  assert (Hwarn : forall wn : list Z, negb (length wn =? expected)%nat = true <-> length wn <> expected).
  { intros wn. rewrite negb_true_iff, Nat.eqb_neq. tauto. }
  destruct (nth_error uhat lr) as [f|] eqn:Enth.
  - assert (Hsp : (lr < length uhat)%nat) by (apply nth_error_Some; congruence).
    destruct (sign_changes_end q f grid po Hg) as (x0 & (n & Hn) & Hs & Hp).
    destruct (finish_strict_ok q po x0 Hs Hp) as (wn & Ewn).
    exists (Ok (wn, negb (length wn =? expected)%nat)). split.
    + exists n. intros fuel Hf. rewrite Hn by auto. rewrite Ewn. reflexivity.
    + split; [|split; [eauto|intros; contradiction]].
      intros wn' w' [= <- <-].
      destruct (finish_props q po x0 wn Ewn Hp) as (P1 & P2 & P3 & P4).
      repeat split; auto; try (apply Hwarn). tauto.
  - assert (Hsp : ~ (lr < length uhat)%nat) by (apply nth_error_None in Enth; lia).
    destruct (rev uhat) as [|f ur] eqn:Erev.
    { apply (f_equal (@rev _)) in Erev. rewrite rev_involutive in Erev. contradiction. }
    assert (Elast : last uhat (fun _ => 0%R) = f).
    { apply (f_equal (@rev _)) in Erev. rewrite rev_involutive in Erev. rewrite Erev. simpl. apply last_last. }
    rewrite Elast.
    destruct (extrema_end f grid Hg) as (x0 & (n & Hn) & Hp & Hord & Hne).
    exists (do wn <- finish q po x0 ;
            do wn <- match wn with [] => Raise IndexError
                     | w :: _ => Ok (if w mod 2 =? 0 then zunique (0 :: wn) else wn) end ;
            Ok (wn, negb (length wn =? expected)%nat)).
    split.
    { exists n. intros fuel Hf. unfold ft_extrema. rewrite Hn by auto.
      cbn [bind]. destruct (finish q po x0) as [[|w wn]|e]; reflexivity. }
    split; [|split; [intros; contradiction|]].
    + intros wn' w'. destruct (finish q po x0) as [wn|e] eqn:Ef; cbn [bind]; [|discriminate].
      destruct (finish_props q po x0 wn Ef Hp) as (P1 & P2 & P3 & P4).
      destruct wn as [|w wn]; cbn [bind]; [discriminate|].
      assert (Hw : parity_of q w) by (inversion P1; auto). unfold parity_of in Hw.
      intros E. injection E as <- <-.
      destruct q.
      * rewrite Hw. change (zeta Even =? 0) with true. cbv iota.
        split; [|split; [|split; [|split; [|split]]]].
        -- rewrite Forall_forall in *. intros m Hm. apply zunique_in in Hm as [<-|Hm]; auto. reflexivity.
        -- intros Hpo. specialize (P2 Hpo). rewrite Forall_forall in *.
           intros m Hm. apply zunique_in in Hm as [<-|Hm]; auto. lia.
        -- intros Hpo. apply zunique_zero_symmetric, symmetric_neg_closed; auto.
        -- intros _. apply zunique_in. left; auto.
        -- intros _. apply zunique_sorted.
        -- apply Hwarn.
      * rewrite Hw. change (zeta Odd =? 0) with false. cbv iota.
        split; [|split; [|split; [|split; [|split]]]]; auto.
        -- intros [_ ?]; discriminate.
        -- intros [?|[?|Hnd]]; [contradiction|discriminate|]. auto.
    + intros _ Hnd Hturn. specialize (Hord Hnd). specialize (Hne Hturn).
      destruct (finish_strict_ok q po x0 Hord Hp) as (wn & Ewn). rewrite Ewn. cbn [bind].
      destruct wn as [|w wn]; [|cbn [bind]; eauto].
      exfalso. unfold finish in Ewn. destruct x0 as [|r x0]; [congruence|].
      destruct po; [discriminate|].
      pose proof (symmetrize_in _ _ (2 * r + zeta q) Ewn) as Hin.
      assert (0 <= r) by (inversion Hp; auto).
      assert (0 <= 2 * r + zeta q) by (unfold zeta; destruct q; lia).
      rewrite Z.abs_eq in Hin by auto. apply Hin. left; auto.
Qed.

(** * The default grid

    [root_lo] and [root_hi] bound 2^(j/16) * 2^70 for j = 0..15; [octave] lists
    the claimed values of int(2^(6 + k/16)).  They are checked below. *)
Definition root_lo : list Z := [
   1180591620717411303424; 1232860877268681853538; 1287444291512146031484;
   1344444319961970744068; 1403967955269739394974; 1466126927056412923593;
   1531037911635881391365; 1598822751023770460953; 1669608681642596123167;
   1743528573152561684292; 1820721177856297496204; 1901331391145691869659;
   1985510523479688313348; 2073416584403568592999; 2165214579142843733833;
   2261076818328478422555].
Definition root_hi : list Z := [
   1180591620717411303424; 1232860877268681853539; 1287444291512146031487;
   1344444319961970744074; 1403967955269739394982; 1466126927056412923604;
   1531037911635881391379; 1598822751023770460970; 1669608681642596123187;
   1743528573152561684315; 1820721177856297496231; 1901331391145691869690;
   1985510523479688313383; 2073416584403568593038; 2165214579142843733876;
   2261076818328478422603].
Definition octave : list Z := [
   64; 66; 69; 72; 76; 79; 82; 86; 90; 94; 98; 103; 107; 112; 117; 122; 128; 133; 139; 145;
   152; 158; 165; 173; 181; 189; 197; 206; 215; 224; 234; 245; 256; 267; 279; 291; 304;
   317; 331; 346; 362; 378; 394; 412; 430; 449; 469; 490; 512; 534; 558; 583; 608; 635;
   663; 693; 724; 756; 789; 824; 861; 899; 939; 980; 1024; 1069; 1116; 1166; 1217; 1271;
   1327; 1386; 1448; 1512; 1579; 1649; 1722; 1798; 1878; 1961; 2048; 2138; 2233; 2332;
   2435; 2543; 2655; 2773; 2896; 3024; 3158; 3298; 3444; 3596; 3756; 3922; 4096; 4277;
   4466; 4664; 4870; 5086; 5311; 5547; 5792; 6049; 6316; 6596; 6888; 7193; 7512; 7844;
   8192; 8554; 8933; 9328; 9741; 10173; 10623; 11094; 11585; 12098; 12633; 13193; 13777;
   14387; 15024; 15689; 16384; 17109; 17866; 18657; 19483; 20346; 21247; 22188; 23170;
   24196; 25267; 26386; 27554; 28774; 30048; 31378; 32768; 34218; 35733; 37315; 38967;
   40693; 42494; 44376; 46340; 48392; 50535; 52772; 55108; 57548; 60096; 62757; 65536;
   68437; 71467; 74631; 77935; 81386; 84989; 88752; 92681; 96785; 101070; 105545; 110217;
   115097; 120193; 125514; 131072; 136875; 142935; 149263; 155871; 162772; 169979; 177504;
   185363; 193570; 202140; 211090; 220435; 230195; 240387; 251029; 262144; 273750; 285870;
   298526; 311743; 325545; 339958; 355009; 370727; 387141; 404281; 422180; 440871; 460390;
   480774; 502059; 524288; 547500; 571740; 597053; 623487; 651091; 679917; 710019; 741455;
   774282; 808562; 844360; 881743; 920781; 961548; 1004119; 1048576; 1095000; 1143480;
   1194106; 1246974; 1302182; 1359834; 1420039; 1482910; 1548564; 1617125; 1688721;
   1763487; 1841563; 1923096; 2008239; 2097152; 2190000; 2286960; 2388212; 2493948;
   2604364; 2719669; 2840079; 2965820; 3097128; 3234250; 3377443; 3526975; 3683127;
   3846193; 4016479; 4194304; 4380001; 4573920; 4776425; 4987896; 5208729; 5439339;
   5680159; 5931641; 6194257; 6468501; 6754886; 7053950; 7366255; 7692387; 8032958;
   8388608; 8760003; 9147841; 9552851; 9975792; 10417458; 10878678; 11360318; 11863283;
   12388515; 12937002; 13509772; 14107900; 14732510; 15384774; 16065917; 16777216;
   17520006; 18295683; 19105702; 19951584; 20834916; 21757357; 22720637; 23726566;
   24777031; 25874004; 27019544; 28215801; 29465021; 30769549; 32131834; 33554432].
Definition grid_list : list Z := map Z.of_nat (seq 0 64) ++ octave.

Definition nthZ (l : list Z) (k : nat) : Z := nth k l 0.

(** One step of the bounds. *)
Definition step_ok (j : nat) : bool :=
  (nthZ root_lo (S j) * 2 ^ 70 <=? nthZ root_lo j * nthZ root_lo 1) &&
  (nthZ root_hi j * nthZ root_hi 1 <=? nthZ root_hi (S j) * 2 ^ 70).

Definition entry_ok (k : nat) : bool :=
  let q := Nat.div k 16 in
  let j := Nat.modulo k 16 in
  let m := nthZ octave k in
  if Nat.eqb j 0 then m =? 2 ^ (6 + Z.of_nat q)
  else (0 <=? m) && (m * 2 ^ 110 <=? nthZ root_lo j * 2 ^ (6 + Z.of_nat q) * (2 ^ 40 - 1))
       && (nthZ root_hi j * 2 ^ (6 + Z.of_nat q) * (2 ^ 40 + 1) <? (m + 1) * 2 ^ 110).

Definition sq (x : Z) := x * x.

Lemma root_steps : forallb step_ok (seq 0 15) = true.
Proof. vm_compute. reflexivity. Qed.
Lemma root_base_lo : (sq (sq (sq (sq (nthZ root_lo 1)))) <=? 2 ^ 1121) = true.
Proof. vm_compute. reflexivity. Qed.
Lemma root_base_hi : (2 ^ 1121 <=? sq (sq (sq (sq (nthZ root_hi 1))))) = true.
Proof. vm_compute. reflexivity. Qed.
Lemma entries_ok : forallb entry_ok (seq 0 305) = true.
Proof. vm_compute. reflexivity. Qed.
Lemma nonneg_roots : forallb (fun z => 0 <=? z) (root_lo ++ root_hi) = true.
Proof. vm_compute. reflexivity. Qed.

Lemma pow16_le x y : (0 <= y -> x ^ 16 <= y ^ 16 -> x <= y)%R.
Proof.
  intros Hy H. destruct (Rle_lt_dec x y); auto. exfalso.
  assert (y ^ 16 < x ^ 16)%R; [|lra].
  assert (forall n, y ^ (S n) < x ^ (S n))%R; [|apply H0].
  induction n.
  - simpl; lra.
  - change (y * y ^ S n < x * x ^ S n)%R.
    assert (0 <= y ^ S n)%R by (apply pow_le; auto). nra.
Qed.

Definition t16 : R := Rpower 2 (/ 16).
Lemma t16_pos : (0 < t16)%R.
Proof. unfold t16, Rpower. apply exp_pos. Qed.
Lemma t16_pow : (t16 ^ 16 = 2)%R.
Proof.
  unfold t16. rewrite <- Rpower_pow by (unfold Rpower; apply exp_pos).
  rewrite Rpower_mult. replace (/ 16 * INR 16)%R with 1%R by (simpl; lra). apply Rpower_1. lra.
Qed.

Lemma sq_IZR z : IZR (sq (sq (sq (sq z)))) = (IZR z ^ 16)%R.
Proof. unfold sq. rewrite !mult_IZR. ring. Qed.

Lemma nthZ_nonneg k : 0 <= nthZ root_lo k /\ 0 <= nthZ root_hi k.
Proof.
  pose proof nonneg_roots as H. rewrite forallb_forall in H.
  split; unfold nthZ.
  - destruct (nth_in_or_default k root_lo 0) as [Hin| ->]; [|lia].
    apply Z.leb_le, H, in_or_app; auto.
  - destruct (nth_in_or_default k root_hi 0) as [Hin| ->]; [|lia].
    apply Z.leb_le, H, in_or_app; auto.
Qed.

Lemma pow2_IZR (n : nat) : IZR (2 ^ Z.of_nat n) = (2 ^ n)%R.
Proof. symmetry. apply pow_IZR. Qed.

Lemma root_bounds j : (j <= 15)%nat ->
  (IZR (nthZ root_lo j) <= 2 ^ 70 * t16 ^ j /\ 2 ^ 70 * t16 ^ j <= IZR (nthZ root_hi j))%R.
Proof.
  assert (H70 : (0 < 2 ^ 70)%R) by (apply pow_lt; lra).
  assert (E1121 : IZR (2 ^ 1121) = ((2 ^ 70 * t16) ^ 16)%R).
  { change 1121 with (Z.of_nat 1121). rewrite pow2_IZR.
    rewrite Rpow_mult_distr, t16_pow, <- pow_mult.
    change (70 * 16)%nat with 1120%nat. change 1121%nat with (1120 + 1)%nat.
    rewrite pow_add, pow_1. reflexivity. }
  assert (B : (IZR (nthZ root_lo 1) <= 2 ^ 70 * t16 /\ 2 ^ 70 * t16 <= IZR (nthZ root_hi 1))%R).
  { pose proof root_base_lo as H1. pose proof root_base_hi as H2.
    apply Z.leb_le, IZR_le in H1. apply Z.leb_le, IZR_le in H2.
    rewrite sq_IZR, E1121 in H1, H2. pose proof t16_pos.
    split; apply pow16_le; auto.
    - apply Rmult_le_pos; lra.
    - apply IZR_le, nthZ_nonneg. }
  induction j as [|j IH]; intros Hj.
  - change (nthZ root_lo 0) with (2 ^ Z.of_nat 70). change (nthZ root_hi 0) with (2 ^ Z.of_nat 70).
    rewrite pow2_IZR. simpl (t16 ^ 0)%R. lra.
  - destruct (IH ltac:(lia)) as [I1 I2]. destruct B as [B1 B2].
    pose proof root_steps as Hs. rewrite forallb_forall in Hs. specialize (Hs j).
    rewrite in_seq in Hs. specialize (Hs ltac:(lia)). unfold step_ok in Hs.
    apply andb_true_iff in Hs as [S1 S2]. apply Z.leb_le, IZR_le in S1. apply Z.leb_le, IZR_le in S2.
    change (2 ^ 70) with (2 ^ Z.of_nat 70) in S1, S2.
    rewrite !mult_IZR, pow2_IZR in S1, S2.
    pose proof (nthZ_nonneg j) as [L0 U0]. apply IZR_le in L0. apply IZR_le in U0.
    pose proof (nthZ_nonneg 1) as [L1 U1]. apply IZR_le in L1. apply IZR_le in U1.
    assert (Ht : (0 < t16 ^ j)%R) by (apply pow_lt, t16_pos). pose proof t16_pos.
    assert (E : ((2 ^ 70 * t16 ^ j) * (2 ^ 70 * t16) = (2 ^ 70 * t16 ^ S j) * 2 ^ 70)%R) by (simpl; ring).
    assert (M1 : (IZR (nthZ root_lo j) * IZR (nthZ root_lo 1) <= (2 ^ 70 * t16 ^ j) * (2 ^ 70 * t16))%R)
      by (apply Rmult_le_compat; auto).
    assert (M2 : ((2 ^ 70 * t16 ^ j) * (2 ^ 70 * t16) <= IZR (nthZ root_hi j) * IZR (nthZ root_hi 1))%R).
    { apply Rmult_le_compat; auto; apply Rmult_le_pos; lra. }
    rewrite E in M1, M2.
    split; apply Rmult_le_reg_r with (2 ^ 70)%R; auto; lra.
Qed.

Lemma Rpower_split k :
  Rpower 2 (6 + INR k / 16) = (2 ^ (6 + k / 16)%nat * t16 ^ (k mod 16)%nat)%R.
Proof.
  assert (E : (6 + INR k / 16 = INR (6 + k / 16) + / 16 * INR (k mod 16))%R).
  { rewrite (Nat.div_mod k 16) at 1 by lia. rewrite !plus_INR, mult_INR. simpl (INR 16). simpl (INR 6). lra. }
  rewrite E, Rpower_plus, Rpower_pow by lra. f_equal.
  unfold t16. rewrite <- Rpower_mult. apply Rpower_pow. unfold Rpower; apply exp_pos.
Qed.

Lemma grid_entry pow2 k : accurate_pow2 pow2 -> (k <= 304)%nat ->
  Ztrunc (pow2 (6 + INR k / 16)%R) = nthZ octave k.
Proof.
  intros Hacc Hk. pose proof (Hacc k Hk) as H. cbv zeta in H.
  assert (Hm : entry_ok k = true).
  { pose proof entries_ok as M. rewrite forallb_forall in M. apply M. apply in_seq. lia. }
  unfold entry_ok in Hm. cbv zeta in Hm.
  assert (Hj : (k mod 16 <= 15)%nat) by (pose proof (Nat.mod_upper_bound k 16); lia).
  pose proof (root_bounds _ Hj) as [HL HU].
  rewrite (Rpower_split k) in H.
  set (m := nthZ octave k) in *.
  destruct (Nat.eqb_spec (k mod 16) 0) as [E0|_].
  - rewrite H. apply Z.eqb_eq in Hm. rewrite E0. simpl (t16 ^ 0)%R. rewrite Rmult_1_r, Hm.
    rewrite <- pow2_IZR, Ztrunc_IZR. f_equal. lia.
  - rewrite !andb_true_iff, Z.leb_le, Z.ltb_lt, Z.leb_le in Hm. destruct Hm as [[H0 H1] H2].
    set (lo := nthZ root_lo (k mod 16)) in *. set (hi := nthZ root_hi (k mod 16)) in *.
    clearbody m lo hi.
    set (y := (t16 ^ (k mod 16))%R) in *.
    assert (Hy : (0 < y)%R) by (apply pow_lt, t16_pos). clearbody y.
    replace (6 + Z.of_nat (k / 16)) with (Z.of_nat (6 + k / 16)) in * by lia.
    change (2 ^ 110) with (2 ^ Z.of_nat 110) in *. change (2 ^ 40) with (2 ^ Z.of_nat 40) in *.
    apply IZR_le in H1. apply IZR_lt in H2. apply IZR_le in H0.
    rewrite !mult_IZR, minus_IZR, !pow2_IZR in H1. rewrite !mult_IZR, !plus_IZR, !pow2_IZR in H2.
    set (Q := (2 ^ (6 + k / 16))%R) in *.
    assert (HQ : (0 < Q)%R) by (apply pow_lt; lra). clearbody Q.
    assert (E110 : (2 ^ 110 = 2 ^ 70 * 2 ^ 40)%R) by (rewrite <- pow_add; f_equal).
    rewrite E110 in *.
    assert (H70 : (0 < 2 ^ 70)%R) by (apply pow_lt; lra).
    assert (H40 : (1 < 2 ^ 40)%R) by (apply Rlt_pow_R1; [lra|lia]).
    set (S := (2 ^ 70)%R) in *. set (T := (2 ^ 40)%R) in *. clearbody S T.
    apply Rabs_le_inv in H.
    assert (A1 : (IZR m * (S * T) <= (S * y) * Q * (T - 1))%R).
    { eapply Rle_trans; [exact H1|]. apply Rmult_le_compat_r; [lra|]. apply Rmult_le_compat_r; lra. }
    assert (A2 : ((S * y) * Q * (T + 1) < (IZR m + 1) * (S * T))%R).
    { eapply Rle_lt_trans; [|exact H2]. apply Rmult_le_compat_r; [lra|]. apply Rmult_le_compat_r; lra. }
    assert (B1 : (IZR m <= Q * y - / T * (Q * y))%R).
    { apply Rmult_le_reg_r with (S * T)%R; [apply Rmult_lt_0_compat; lra|].
      replace ((Q * y - / T * (Q * y)) * (S * T))%R with ((S * y) * Q * (T - 1))%R by (field; lra). auto. }
    assert (B2 : (Q * y + / T * (Q * y) < IZR m + 1)%R).
    { apply Rmult_lt_reg_r with (S * T)%R; [apply Rmult_lt_0_compat; lra|].
      replace ((Q * y + / T * (Q * y)) * (S * T))%R with ((S * y) * Q * (T + 1))%R by (field; lra). auto. }
    rewrite Ztrunc_floor by lra. apply Zfloor_imp. rewrite plus_IZR. lra.
Qed.

Lemma default_grid_eq pow2 : accurate_pow2 pow2 -> default_grid pow2 = grid_list.
Proof.
  intros H. unfold default_grid, grid_list. f_equal.
  change octave with (map (nthZ octave) (seq 0 305)).
  apply map_ext_in. intros k Hk. apply in_seq in Hk. apply grid_entry; auto. lia.
Qed.

Fixpoint increasingb (l : list Z) : bool :=
  match l with
  | x :: ((y :: _) as l') => (x <? y) && increasingb l'
  | _ => true
  end.
Lemma increasingb_sorted l : increasingb l = true -> StronglySorted Z.lt l.
Proof.
  induction l as [|x l IH]; [constructor|]. intros H.
  destruct l as [|y l]; [repeat constructor|].
  cbn [increasingb] in H. apply andb_true_iff in H as [H1 H2]. apply Z.ltb_lt in H1.
  specialize (IH H2). constructor; auto. constructor; auto.
  apply StronglySorted_inv in IH as [_ IH]. eapply Forall_impl; [|exact IH]. intros; lia.
Qed.

Lemma grid_list_facts :
  length grid_list = 369%nat /\ StronglySorted Z.lt grid_list /\
  firstn 65 grid_list = map Z.of_nat (seq 0 65) /\ last grid_list 0 = 2 ^ 25 /\
  Forall (fun x => 0 <= x) grid_list.
Proof.
  split; [reflexivity|]. split; [apply increasingb_sorted; vm_compute; reflexivity|].
  split; [vm_compute; reflexivity|]. split; [vm_compute; reflexivity|].
  apply Forall_forall. intros x Hx.
  assert (H : forallb (fun x => 0 <=? x) grid_list = true) by (vm_compute; reflexivity).
  rewrite forallb_forall in H. apply Z.leb_le, H; auto.
Qed.

Lemma default_grid_facts pow2 : accurate_pow2 pow2 ->
  length (default_grid pow2) = 369%nat /\ StronglySorted Z.lt (default_grid pow2) /\
  firstn 65 (default_grid pow2) = map Z.of_nat (seq 0 65) /\ last (default_grid pow2) 0 = 2 ^ 25 /\
  search_grid (default_grid pow2).
Proof.
  intros H. rewrite (default_grid_eq _ H). destruct grid_list_facts as (H1 & H2 & H3 & H4 & H5).
  repeat (split; auto). rewrite H1. lia.
Qed.

Lemma exact_pow2_accurate : accurate_pow2 (Rpower 2).
Proof.
  intros k _. cbv zeta. destruct (Nat.eqb _ _); auto.
  rewrite Rminus_eq_0, Rabs_R0. apply Rmult_le_pos.
  - left. apply Rinv_0_lt_compat, pow_lt. lra.
  - left. unfold Rpower. apply exp_pos.
Qed.

(** * Unordered points in the fermionic fallback *)
Definition spiky (x : Z) : Z :=
  if (x =? 317) || (x =? 318) then 2 else
  if (x =? 326) || (x =? 328) || (x =? 331) || (x =? 346) then 1 else 0.

Lemma fallback_unordered_witness :
  ends_with (fun fuel => default_matsubara fuel grid_list Odd [fun x => IZR (spiky x)] 2 false true)
            (Ok ([661; 653; 693; 755], true)).
Proof.
  exists 40%nat. intros fuel Hf.
  assert (E : discrete_extrema fuel (fun x => IZR (spiky x)) grid_list = Some (Ok [330; 326; 346; 377])).
  { change grid_list with (0 :: 1 :: skipn 2 grid_list). rewrite extrema_zr.
    do 40 (destruct fuel as [|fuel]; [lia|]). vm_compute. reflexivity. }
  unfold default_matsubara. change (nth_error [fun x => IZR (spiky x)] (l_requested Odd 2)) with (@None (Z -> R)).
  cbn [rev app]. unfold ft_extrema. rewrite E. vm_compute. reflexivity.
Qed.

Lemma fallback_unordered :
  exists f, forall pow2, accurate_pow2 pow2 ->
    ends_with (fun fuel => default_matsubara fuel (default_grid pow2) Odd [f] 2 false true)
              (Ok ([661; 653; 693; 755], true)).
Proof.
  eexists. intros pow2 H. rewrite (default_grid_eq _ H). exact fallback_unordered_witness.
Qed.
