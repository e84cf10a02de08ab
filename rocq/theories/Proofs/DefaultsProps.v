(** Theorems about default sampling frequencies. *)
From Coq Require Import Reals ZArith Arith Bool Lra Lia String.
From Coquelicot Require Import Coquelicot.
From Coq Require Import List Sorting.Sorted.
From Verif.Model Require Import Base Util Num Roots Matsubara Poly FT SVE Basis Augment NDArray Sampling DLR Defaults.
From Verif.Spec Require Import SRoots SMatsubara SPoly SFT SSVE SBasis SSampling SDefaults.
From Verif.Proofs Require Import BaseFacts RootsFacts RootsDiscr RootsExtr MatsubaraFacts DefaultMatsubara
  SumFacts IntFacts FTFacts FTCall FTProps BasisInit BasisProps BasisOps BasisPhys AdapterProps PointwiseFacts DefaultsFacts.
Import ListNotations.
Open Scope R_scope.
Notation length := List.length.

Lemma finish_in q po x0 wn n : finish q po x0 = Ok wn -> Forall (fun x => (0 <= x)%Z) x0 -> (0 <= n)%Z ->
  In n wn <-> exists x, In x x0 /\ n = (2 * x + zeta q)%Z.
Proof.
  unfold finish. intros H Hp Hn. destruct po.
  - injection H as <-. rewrite in_map_iff. split; intros (x & A & B); exists x; auto.
  - rewrite (symmetrize_in _ _ n H), Z.abs_eq by auto. rewrite in_map_iff. split; intros (x & A & B); exists x; auto.
Qed.

Lemma ends_map {A B} (run : nat -> option A) (run' : nat -> option B) r r' :
  (forall fuel, run fuel = Some r -> run' fuel = Some r') -> ends_with run r -> ends_with run' r'.
Proof. intros H (n & Hn). exists n. intros fuel Hf. apply H, Hn, Hf. Qed.

(** A spare function exists: its sign changes. *)
Lemma spare_points grid q uhat L (po : bool) g : search_grid grid -> nth_error uhat (l_requested q L) = Some g ->
  let lr := l_requested q L in
  exists (x0 wn : list Z), let w := negb (length wn =? (if po then Nat.div (lr + 1) 2 else lr))%nat in
    ends_with (fun fuel => default_matsubara fuel grid q uhat L false po) (Ok (wn, w)) /\
    Forall (fun n => n mod 2 = zeta q)%Z wn /\
    (po = true -> Forall (fun n => 0 <= n)%Z wn) /\ (po = false -> symmetric wn) /\ StronglySorted Z.lt wn /\
    (forall n, (0 <= n)%Z -> In n wn <-> exists x, In x x0 /\ n = (2 * x + zeta q)%Z) /\
    (forall x, In x grid -> g x = 0 -> In x x0) /\
    (forall a c, adjacent grid a c -> g a * g c < 0 ->
       exists x, (In x x0 /\ (a <= x < c)%Z) /\ forall x', In x' x0 -> (a <= x' < c)%Z -> x' = x) /\
    (forall x, In x x0 -> (0 <= x)%Z /\ (g x = 0 \/ g (x + 1)%Z = 0 \/ g x * g (x + 1)%Z < 0)).
Proof.
  intros Hg Hu lr. destruct Hg as (Hs & Hl & Hp).
  destruct (find_all_discr_ok rsignbit (fun v => Reqb v 0) g grid Hs) as (rs & (n & Hn) & Hso & Hz & Hi & Hsound).
  assert (Hpos : Forall (fun x => (0 <= x)%Z) rs).
  { rewrite Forall_forall in *. intros r Hr.
    destruct (Hsound r Hr) as [[Hin _]|(a & c & Hab & _ & Hr' & _)]; auto.
    apply adjacent_in_l in Hab. apply Hp in Hab. lia. }
  destruct (finish_strict_ok q po rs Hso Hpos) as (wn & Ewn).
  destruct (finish_props q po rs wn Ewn Hpos) as (P1 & P2 & P3 & P4).
  exists rs, wn. cbv zeta. split.
  { exists n. intros fuel Hf. unfold default_matsubara. fold lr in Hu |- *. rewrite Hu.
    unfold ft_sign_changes. rewrite Hn by auto. rewrite Ewn. reflexivity. }
  split; [exact P1|]. split; [exact P2|]. split; [exact P3|]. split; [auto|].
  split. { intros m Hm. apply (finish_in q po rs wn m Ewn Hpos Hm). }
  split. { intros x Hx E. apply Hz; auto. apply Reqb_true. exact E. }
  assert (Sb : forall v, rsignbit v = true <-> v < 0). { intros v. unfold rsignbit. apply Rltb_true. }
  split.
  - intros a c Hac Hlt. destruct (Hi a c Hac) as (r & (R1 & R2 & _) & R3).
    { assert (g a <> 0 /\ g c <> 0) as [N1 N2] by (split; intros E; rewrite E in Hlt; lra).
      split; [|split].
      - destruct (Reqb (g a) 0) eqn:E; auto. apply Reqb_true in E. contradiction.
      - destruct (Reqb (g c) 0) eqn:E; auto. apply Reqb_true in E. contradiction.
      - intros E. destruct (rsignbit (g a)) eqn:Ea; destruct (rsignbit (g c)) eqn:Ec; try discriminate.
        + apply Sb in Ea, Ec. pose proof (Rmult_lt_0_compat (- g a) (- g c)). nra.
        + assert (~ g a < 0) by (intros X; apply Sb in X; congruence).
          assert (~ g c < 0) by (intros X; apply Sb in X; congruence). nra. }
    exists r. split; auto.
  - intros x Hx. split. { rewrite Forall_forall in Hpos. auto. }
    destruct (Hsound x Hx) as [[_ E]|(a & c & _ & _ & _ & Hfl)].
    + left. apply Reqb_true. exact E.
    + destruct (Req_dec (g x) 0) as [|N0]; auto. right. unfold flips in Hfl. destruct (Req_dec (g (x + 1)%Z) 0) as [|N]; auto. right.
      destruct (rsignbit (g x)) eqn:Ea; destruct (rsignbit (g (x + 1)%Z)) eqn:Ec; try congruence.
      * apply Sb in Ea. assert (~ g (x + 1)%Z < 0) by (intros X; apply Sb in X; congruence). nra.
      * apply Sb in Ec. assert (~ g x < 0) by (intros X; apply Sb in X; congruence). nra.
Qed.

(** Coordinates on an axis. *)
Lemma axis_products (e : C) (s t : R) : e = RtoC 1 \/ e = Ci ->
  Re (Cmult (Cmult e (RtoC s)) (Cconj (Cmult e (RtoC t)))) = s * t.
Proof. intros [-> | ->]; unfold Re, Cmult, Cconj, RtoC, Ci; simpl; ring. Qed.
Lemma axis_zero (e : C) (s : R) : e = RtoC 1 \/ e = Ci -> Cmult e (RtoC s) = RtoC 0 <-> s = 0.
Proof.
  intros He. split.
  - intros H. apply (f_equal (fun z => (Re z, Im z))) in H. destruct He as [-> | ->]; unfold Re, Im, Cmult, RtoC, Ci in H; simpl in H; injection H; intros; lra.
  - intros ->. ring.
Qed.

Lemma removelast_length' {A} (l : list A) : length (removelast l) = (length l - 1)%nat.
Proof. rewrite removelast_firstn_len, firstn_length. lia. Qed.

Section Full.
Variable compute : kern -> option R -> res sve_result.
Variable b : basis.
Hypothesis Hb : built compute b.
Let F := buhat_full b.
Let q := stat_freq b.
Let N := length (ss (bsve b)).

(** What is searched, for a function of definite parity. *)
Lemma searched_definite (l : Z) k : (k < N)%nat -> definite (bsve b) k ->
  (forall B (m : list B), length m = N -> pyindex m l = nth_error m k) ->
  exists g, searched_item F l = Ok g /\ on_axis b k g.
Proof.
  intros Hk Hd Hpy. destruct (full_nth compute b Hb k Hk) as (c & E1 & E2).
  destruct (full_shape compute b Hb) as (HQ & HK & _). fold F in HQ, HK, E2.
  pose proof (searched_item_facts compute b Hb l k _ ltac:(rewrite Hpy by exact HK; exact E2) E2 Hpy) as H. fold F in H. cbn [csym] in H.
  destruct (part_defined b k c E1 (proj1 (Hd c E1))) as (part & Epart). fold q in Epart, H. rewrite Epart in H.
  destruct H as (g & Eg & Hg). exists g. split; auto.
  pose proof (definite_axis compute b Hb k part c E1 Hd Epart) as Hax. fold F q in Hax.
  exists (match part with RealPart => RtoC 1 | ImagPart => Ci end). split; [destruct part; auto|].
  intros x. specialize (Hax _ (nu_ok b x)). specialize (Hg x). fold F in Hg |- *. rewrite Hg.
  destruct (hat F k (nu b x)) as [re im]. destruct part; unfold Re, Im in *; cbn [fst snd] in *; subst;
    unfold Cmult, RtoC, Ci; cbn [fst snd]; f_equal; ring.
Qed.

Lemma uhat_default_eq fuel grid L po l g :
  l = (if (l_requested q L <? N)%nat then Z.of_nat (l_requested q L) else (-1)%Z) ->
  searched_item F l = Ok g -> 
  uhat_default fuel grid F L po =
    default_matsubara fuel grid q (map (fun l => match searched_item F (Z.of_nat l) with Ok g => g | Raise _ => fun _ => 0 end) (seq 0 N)) L false po.
Proof.
  intros El Eg. destruct (full_shape compute b Hb) as (HQ & HK & _). fold F q N in HQ, HK.
  unfold uhat_default. rewrite HQ. replace (search_freq (ft_of q)) with (Ok q : res freq) by (destruct q; reflexivity).
  cbn [after]. rewrite HK, <- El, Eg. reflexivity.
Qed.

Lemma nat_index l : (l < N)%nat -> forall B (m : list B), length m = N -> pyindex m (Z.of_nat l) = nth_error m l.
Proof. intros _ B m _. apply BasisPhys.pyindex_nat. Qed.
Lemma last_index : (0 < N)%nat -> forall B (m : list B), length m = N -> pyindex m (-1) = nth_error m (N - 1).
Proof.
  intros H0 B m Hm. unfold pyindex. rewrite Hm.
  replace ((- Z.of_nat N <=? -1) && (-1 <? Z.of_nat N))%Z with true.
  2: { symmetry. apply andb_true_iff. split; [apply Z.leb_le|apply Z.ltb_lt]; lia. }
  cbv iota. replace (-1 <? 0)%Z with true by reflexivity. cbv iota. f_equal. lia.
Qed.

Lemma nth_total l g : (l < N)%nat -> searched_item F (Z.of_nat l) = Ok g ->
  nth_error (map (fun l => match searched_item F (Z.of_nat l) with Ok g => g | Raise _ => fun _ => 0 end) (seq 0 N)) l = Some g.
Proof.
  intros Hl Eg. rewrite nth_error_map. replace (nth_error (seq 0 N) l) with (Some l).
  - cbn. rewrite Eg. reflexivity.
  - symmetry. rewrite (nth_error_nth' _ 0%nat) by (rewrite seq_length; auto). rewrite seq_nth by auto. reflexivity.
Qed.

(** A spare function is there. *)
Lemma matsubara_spare grid L (po : bool) : search_grid grid ->
  let lr := l_requested q L in (lr < N)%nat -> definite (bsve b) lr ->
  exists wn, let w := negb (length wn =? (if po then Nat.div (lr + 1) 2 else lr))%nat in
    ends_with (fun fuel => basis_matsubara fuel grid b (Some L) po) (Ok (wn, w)) /\
    Forall (fun n => n mod 2 = zeta q)%Z wn /\
    (po = true -> Forall (fun n => 0 <= n)%Z wn) /\ (po = false -> symmetric wn) /\ StronglySorted Z.lt wn /\
    (forall n, In n wn -> (0 <= n)%Z -> crosses (hat F lr n) (hat F lr (n + 2)%Z)) /\
    (forall x, In x grid -> hat F lr (nu b x) = RtoC 0 -> In (nu b x) wn) /\
    (forall a c, adjacent grid a c -> opposite (hat F lr (nu b a)) (hat F lr (nu b c)) ->
       exists n, (In n wn /\ (nu b a <= n < nu b c)%Z) /\ forall n', In n' wn -> (nu b a <= n' < nu b c)%Z -> n' = n).
Proof.
  intros Hg lr Hlr Hd. pose proof Hg as (Hg1 & Hg2 & Hg3).
  destruct (searched_definite (Z.of_nat lr) lr Hlr Hd (nat_index lr Hlr)) as (g & Eg & e & He & Hax).
  destruct (spare_points grid q _ L po g Hg (nth_total lr g Hlr Eg)) as (x0 & wn & Hend & P1 & P2 & P3 & P4 & Hin & Hz & Hi & Hs).
  fold lr in Hend. exists wn. cbv zeta in Hend |- *. fold F in Hax.
  assert (Hpos : forall x, In x grid -> (0 <= x)%Z) by (rewrite Forall_forall in Hg3; exact Hg3).
  assert (Hnu : forall x, (0 <= x)%Z -> (0 <= nu b x)%Z) by (intros x Hx; unfold nu, zeta; destruct (stat_freq b); lia).
  assert (Hw : forall x, (0 <= x)%Z -> In (nu b x) wn <-> In x x0).
  { intros x Hx. rewrite (Hin _ (Hnu x Hx)). unfold nu. fold q. split.
    - intros (y & Hy & E). replace x with y by lia. exact Hy.
    - intros H. exists x. auto. }
  split.
  { revert Hend. apply ends_map. intros fuel Hr. unfold basis_matsubara. fold F.
    rewrite (uhat_default_eq fuel grid L po (Z.of_nat lr) g); auto. fold lr. rewrite (proj2 (Nat.ltb_lt lr N) Hlr). reflexivity. }
  split; [exact P1|]. split; [exact P2|]. split; [exact P3|]. split; [exact P4|]. split; [|split].
  - intros n Hn H0. apply (Hin n H0) in Hn as (x & Hx & ->). destruct (Hs x Hx) as (Hx0 & Hc).
    change (2 * x + zeta q)%Z with (nu b x). replace (nu b x + 2)%Z with (nu b (x + 1)) by (unfold nu; ring).
    rewrite !Hax. unfold crosses, opposite. rewrite !(axis_zero e) by auto. rewrite axis_products by auto. exact Hc.
  - intros x Hx E. rewrite Hax, axis_zero in E by auto. apply (Hw x (Hpos x Hx)). auto.
  - intros a c Hac Hop. unfold opposite in Hop. rewrite !Hax, axis_products in Hop by auto.
    destruct (Hi a c Hac Hop) as (x & (X1 & X2) & X3). exists (nu b x).
    assert (Ha : (0 <= a)%Z) by (apply Hpos, (adjacent_in_l _ _ _ Hac)).
    split; [split; [apply Hw; [lia|exact X1]|unfold nu; lia]|].
    intros n' Hn' Hr. assert (H0 : (0 <= n')%Z) by (pose proof (Hnu a Ha); lia).
    apply (Hin n' H0) in Hn' as (y & Hy & ->). change (2 * y + zeta q)%Z with (nu b y) in *. f_equal. apply X3; auto. unfold nu in Hr. lia.
Qed.

(** No spare function: the extrema of the last one. *)
Lemma fallback_more grid uhat L (po : bool) f : search_grid grid -> nth_error uhat (l_requested q L) = None -> uhat <> [] -> last uhat (fun _ => 0) = f ->
  forall y0 y1 yl yl' l1 l2, grid = y0 :: y1 :: l1 -> grid = l2 ++ [yl'; yl] ->
  exists x0, (In y0 x0 <-> outer_max f y0 y1) /\ (In yl x0 <-> outer_max f yl yl') /\
    (forall a c d, adjacent3 grid a c d -> turns f a c d -> exists r, In r x0 /\ inner_max f a d r) /\
    (forall r, In r x0 -> (0 <= r)%Z /\ (r = y0 \/ r = yl \/ (exists a c d, adjacent3 grid a c d /\ turns f a c d /\ inner_max f a d r))) /\
    forall wn w, ends_with (fun fuel => default_matsubara fuel grid q uhat L false po) (Ok (wn, w)) ->
      forall n, (0 <= n)%Z -> In n wn <-> (n = 0%Z /\ q = Even) \/ exists x, In x x0 /\ n = (2 * x + zeta q)%Z.
Proof.
  intros Hg Hu Hne Hlast y0 y1 yl yl' l1 l2 E1 E2. pose proof Hg as (Hs & Hl & Hp).
  destruct (discrete_extrema_ok f grid y0 y1 yl yl' l1 l2 Hs E1 E2) as (rs & Hend & A1 & A2 & Hcomp & Hsound & _).
  assert (Hpos : Forall (fun x => (0 <= x)%Z) rs).
  { rewrite Forall_forall in *. intros r Hr. destruct (Hsound r Hr) as [->|[->|(a & c & d & (m1 & m2 & Em) & _ & (Hr' & _))]].
    + apply Hp. rewrite E1. left; auto.
    + apply Hp. rewrite E2. apply in_or_app; right; right; left; auto.
    + assert (Ha : In a grid) by (rewrite Em; apply in_or_app; right; left; auto). apply Hp in Ha. lia. }
  exists rs. split; [exact A1|]. split; [exact A2|]. split; [exact Hcomp|].
  split. { intros r Hr. split; [rewrite Forall_forall in Hpos; auto|auto]. }
  intros wn w (n1 & H1) n Hn. destruct Hend as (n2 & H2). specialize (H1 (Nat.max n1 n2) ltac:(lia)). specialize (H2 (Nat.max n1 n2) ltac:(lia)).
  unfold default_matsubara in H1. rewrite Hu in H1.
  destruct (rev uhat) as [|f' ur] eqn:Erev.
  { apply (f_equal (@rev _)) in Erev. rewrite rev_involutive in Erev. contradiction. }
  assert (f' = f) as ->.
  { rewrite <- Hlast. apply (f_equal (@rev _)) in Erev. rewrite rev_involutive in Erev. rewrite Erev. simpl. symmetry. apply last_last. }
  unfold ft_extrema in H1. cbv zeta in H1. rewrite H2 in H1. cbn [bind] in H1. destruct (finish q po rs) as [wn0|] eqn:Ef; [|discriminate].
  cbn [bind] in H1. destruct (finish_props q po rs wn0 Ef Hpos) as (P1 & _).
  destruct wn0 as [|w0 wn0]; cbn [bind] in H1; [discriminate|]. injection H1 as <- _.
  rewrite <- (finish_in q po rs (w0 :: wn0) n Ef Hpos Hn).
  assert (Hw : parity_of q w0) by (inversion P1; auto). unfold parity_of in Hw. destruct q eqn:Eq.
  - rewrite Hw. change (zeta Even =? 0)%Z with true. cbv iota. rewrite zunique_in. cbn [In]. intuition congruence.
  - rewrite Hw. change (zeta Odd =? 0)%Z with false. cbv iota. intuition congruence.
Qed.

Lemma matsubara_fallback grid L (po : bool) : search_grid grid ->
  let lr := l_requested q L in (N <= lr)%nat -> definite (bsve b) (N - 1) ->
  exists g out, on_axis b (N - 1) g /\
    ends_with (fun fuel => basis_matsubara fuel grid b (Some L) po) out /\
    (forall wn w, out = Ok (wn, w) ->
       Forall (fun n => n mod 2 = zeta q)%Z wn /\
       (po = true -> Forall (fun n => 0 <= n)%Z wn) /\ (po = false -> symmetric wn) /\
       (q = Even \/ no_double_turn g grid -> StronglySorted Z.lt wn) /\
       (w = true <-> length wn <> (if po then Nat.div (lr + 1) 2 else lr)) /\
       forall y0 y1 yl yl' l1 l2, grid = y0 :: y1 :: l1 -> grid = l2 ++ [yl'; yl] ->
       exists x0, (forall n, (0 <= n)%Z -> In n wn <-> (n = 0%Z /\ q = Even) \/ exists x, In x x0 /\ n = nu b x) /\
         (In y0 x0 <-> outer_max g y0 y1) /\ (In yl x0 <-> outer_max g yl yl') /\
         (forall a c d, adjacent3 grid a c d -> turns g a c d -> exists r, In r x0 /\ inner_max g a d r) /\
         (forall r, In r x0 -> (0 <= r)%Z /\ (r = y0 \/ r = yl \/ (exists a c d, adjacent3 grid a c d /\ turns g a c d /\ inner_max g a d r)))) /\
    (no_double_turn g grid -> (exists a c d, adjacent3 grid a c d /\ turns g a c d) -> exists wn w, out = Ok (wn, w)).
Proof.
  intros Hg lr Hlr Hd. destruct (full_shape compute b Hb) as (_ & _ & HN & _). fold N in HN.
  assert (HN1 : (N - 1 < N)%nat) by lia.
  destruct (searched_definite (-1)%Z (N - 1) HN1 Hd (last_index HN)) as (g1 & Eg1 & _).
  destruct (searched_definite (Z.of_nat (N - 1)) (N - 1) HN1 Hd (nat_index (N - 1) HN1)) as (g & Eg & Hax).
  pose proof (nth_total (N - 1) g HN1 Eg) as Hlast.
  assert (Hq : forall fuel, basis_matsubara fuel grid b (Some L) po = default_matsubara fuel grid q
    (map (fun l => match searched_item F (Z.of_nat l) with Ok g => g | Raise _ => fun _ => 0 end) (seq 0 N)) L false po).
  { intros fuel. unfold basis_matsubara. fold F. apply (uhat_default_eq fuel grid L po (-1)%Z g1); auto.
    fold lr. replace (lr <? N)%nat with false by (symmetry; apply Nat.ltb_ge; lia). reflexivity. }
  set (uhat := map _ (seq 0 N)) in *.
  assert (Lu : length uhat = N) by (unfold uhat; rewrite map_length, seq_length; reflexivity).
  assert (Hne : uhat <> []) by (intros E; rewrite E in Lu; cbn in Lu; lia).
  assert (El : last uhat (fun _ => 0) = g).
  { rewrite (app_removelast_last (fun _ => 0) Hne) in Hlast.
    rewrite nth_error_app2 in Hlast by (rewrite removelast_length', Lu; lia). rewrite removelast_length', Lu, Nat.sub_diag in Hlast.
    cbn in Hlast. congruence. }
  assert (Hu : nth_error uhat (l_requested q L) = None) by (apply nth_error_None; fold lr; lia).
  destruct (default_matsubara_end grid q uhat L po Hg Hne) as (out & Hend & H1 & _ & H3). cbv zeta in H1, H3. rewrite El, Lu in H1, H3. fold lr in H1, H3.
  exists g, out. split; [exact Hax|].
  split. { revert Hend. apply ends_map. intros fuel Hr. rewrite Hq. exact Hr. }
  split.
  - intros wn w E. destruct (H1 wn w E) as (P1 & P2 & P3 & _ & P5 & P6).
    split; [exact P1|]. split; [exact P2|]. split; [exact P3|]. split; [tauto|]. split; [exact P6|].
    intros y0 y1 yl yl' l1 l2 E1 E2.
    destruct (fallback_more grid uhat L po g Hg Hu Hne El y0 y1 yl yl' l1 l2 E1 E2) as (x0 & X1 & X2 & X3 & X4 & X5).
    exists x0. rewrite E in Hend. split; [|auto]. intros n Hn. apply (X5 wn w Hend n Hn).
  - apply H3. lia.
Qed.

(** A function that is not marked even or odd. *)
Lemma matsubara_unmarked grid L po fuel :
  let lr := l_requested q L in
  unmarked (bsve b) (if (lr <? N)%nat then lr else (N - 1)%nat) ->
  basis_matsubara fuel grid b (Some L) po = Some (Raise ValueError).
Proof.
  intros lr (c & Ec & Hs). destruct (full_shape compute b Hb) as (HQ & HK & HN & _). fold F q N in HQ, HK, HN.
  set (k := if (lr <? N)%nat then lr else (N - 1)%nat) in *.
  set (z := if (lr <? N)%nat then Z.of_nat lr else (-1)%Z).
  assert (Hk : (k < N)%nat /\ forall B (m : list B), length m = N -> pyindex m z = nth_error m k).
  { unfold k, z. destruct (lr <? N)%nat eqn:E.
    - apply Nat.ltb_lt in E. split; auto. apply nat_index; auto.
    - split; [lia|]. apply last_index; auto. }
  destruct Hk as [Hk Hpy]. destruct (full_nth compute b Hb k Hk) as (c' & E1 & E2). fold F in E2.
  rewrite Ec in E1. injection E1 as <-.
  pose proof (searched_item_facts compute b Hb z k _ ltac:(rewrite Hpy by exact HK; exact E2) E2 Hpy) as H. fold F q in H. cbn [csym] in H.
  replace (func_part (csym c) (ft_zeta (ft_of q))) with (Raise ValueError : res cpart) in H.
  - unfold basis_matsubara, uhat_default. fold F. rewrite HQ. replace (search_freq (ft_of q)) with (Ok q : res freq) by (destruct q; reflexivity).
    cbn [after]. rewrite HK. fold lr. fold z. rewrite H. reflexivity.
  - unfold func_part. rewrite Hs.
    assert (C1 : close 0 1 = false). { unfold close. apply Rleb_false. replace (0 - 1) with (-1) by ring. rewrite Rabs_R1, Rabs_left by lra. lra. }
    assert (C2 : close 0 (-1) = false). { unfold close. apply Rleb_false. replace (0 - -1) with 1 by ring. rewrite Rabs_R1, Rabs_left by lra. lra. }
    rewrite C1, C2. reflexivity.
Qed.

(** The transforms of the whole expansion below the threshold. *)
Lemma full_fourier lam l f n : klam (bkernel b) = Some lam -> (l < N)%nat -> represents (su (bsve b)) l f ->
  freq_ok (ft_of q) n -> Rabs (IZR n) < 40 * lam ->
  is_fourier (fun t => PI * IZR n * t / bbeta b) (fun t => sqrt (2 / bbeta b) * f (2 * t / bbeta b - 1)) 0 (bbeta b) (hat F l n).
Proof.
  intros Hlam Hl Hf Hn Hlt. pose proof (beta_pos compute b Hb) as Pb.
  destruct (full_facts compute b Hb) as (lam' & Hlam' & Hf0). rewrite Hlam in Hlam'. injection Hlam' as <-.
  destruct (full_shape compute b Hb) as (HQ & HK & HN & Fr & HC). fold F q N in HQ, HK, HN, HC.
  destruct (full_nth compute b Hb l Hl) as (c & Ec & Ec'). fold F in Ec'.
  destruct (full_call compute b Hb n Hn) as (M & EM & LM & RM).
  set (c' := Col (fun k i => sqrt (bbeta b) * cdat c k i) (csym c)) in *. rewrite HC in Ec'.
  destruct (ft_fourier _ _ _ _ _ [n] M l c' 0 n Fr Hf0 EM Ec' eq_refl) as (v & Ev & Hv).
  { intros x Hx. injection Hx as <-. auto. }
  unfold entry in Ev. rewrite RM in Ev by auto. injection Ev as <-. fold F in Hv.
  set (v := hat F l n) in *. cbn [vgeom full_u] in Hv.
  pose proof (ok_r compute b Hb) as ((Hg & Ho & Hlen) & _ & U1 & U2 & _ & _ & Lu & _).
  assert (Hc : forall x, cval (vgeom (su (bsve b))) c' x = sqrt (bbeta b) * cval (vgeom (su (bsve b))) c x).
  { intros x. unfold cval, c'. cbn [cdat]. unfold legval. rewrite <- Rmult_assoc. f_equal.
    rewrite <- sumn_scal. apply sumn_ext. intros; ring. }
  assert (Hfx : forall x, -1 <= x <= 1 -> f x = cval (vgeom (su (bsve b))) c x).
  { intros x Hx. apply (represents_cval _ _ _ Hg ltac:(lia) ltac:(rewrite Lu; exact Hl)) in Hf. destruct Hf as (c0 & E0 & Hf). rewrite Ec in E0. injection E0 as <-.
    symmetry. apply Hf. rewrite U1, U2. exact Hx. }
  assert (E2 : sqrt (bbeta b) = sqrt 2 * sqrt (bbeta b / 2)).
  { rewrite <- sqrt_mult by lra. f_equal. field. }
  assert (E3 : sqrt (2 / bbeta b) * (bbeta b / 2) = sqrt (bbeta b / 2)).
  { replace (2 / bbeta b) with (/ (bbeta b / 2)) by (field; lra). rewrite sqrt_inv.
    rewrite <- (sqrt_sqrt (bbeta b / 2)) at 2 by lra. field. apply Rgt_not_eq, sqrt_lt_R0. lra. }
  pose proof (sqrt_lt_R0 2 ltac:(lra)) as P2.
  assert (Hgen : forall (h : R -> R) (I : R), is_RInt (fun x => h (PI * IZR n * (x + 1) / 2) * cval (vgeom (su (bsve b))) c' x) (-1) 1 (sqrt 2 * I) ->
            is_RInt (fun t => h (PI * IZR n * t / bbeta b) * (sqrt (2 / bbeta b) * f (2 * t / bbeta b - 1))) 0 (bbeta b) I).
  { intros h I HI. apply (is_RInt_scalR _ _ _ _ (/ sqrt 2)) in HI.
    replace (/ sqrt 2 * (sqrt 2 * I)) with I in HI by (field; lra).
    match type of HI with is_RInt ?F _ _ _ => assert (HI' : is_RInt F (2 / bbeta b * 0 + -1) (2 / bbeta b * bbeta b + -1) I) end.
    { replace (2 / bbeta b * 0 + -1) with (-1) by ring. replace (2 / bbeta b * bbeta b + -1) with 1 by (field; lra). exact HI. }
    clear HI. rename HI' into HI. apply is_RInt_lin in HI. revert HI. apply is_RInt_ext_in; [lra|]. intros t Ht. rewrite Hc.
    replace (2 / bbeta b * t + -1) with (2 * t / bbeta b - 1) by (field; lra).
    rewrite Hfx.
    2:{ assert (0 <= 2 * t / bbeta b <= 2); [|lra]. split.
        - apply Rmult_le_pos; [lra|]. apply Rlt_le, Rinv_0_lt_compat, Pb.
        - apply (Rmult_le_reg_r (bbeta b)); [exact Pb|]. replace (2 * t / bbeta b * bbeta b) with (2 * t) by (field; lra). lra. }
    replace (PI * IZR n * (2 * t / bbeta b - 1 + 1) / 2) with (PI * IZR n * t / bbeta b) by (field; lra).
    rewrite E2. set (X := cval _ _ _). set (Y := h _).
    replace (sqrt (2 / bbeta b)) with (2 / bbeta b * sqrt (bbeta b / 2)) by (rewrite <- E3; field; lra).
    field. split; lra. }
  destruct Hv as [Hre Him]. split.
  - apply (Hgen cos). replace (sqrt 2 * Re v) with (Re (Cmult (RtoC (sqrt 2)) v)); auto.
    unfold Re, Cmult, RtoC; simpl; ring.
  - apply (Hgen sin). replace (sqrt 2 * Im v) with (Im (Cmult (RtoC (sqrt 2)) v)); auto.
    unfold Im, Cmult, RtoC; simpl; ring.
Qed.
End Full.
