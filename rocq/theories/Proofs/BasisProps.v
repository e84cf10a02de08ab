(** Properties of finite-temperature bases: slicing, rescaling, validation. *)
From Coq Require Import Reals ZArith Arith Bool Lra Lia String Ascii.
From Coquelicot Require Import Coquelicot.
From Coq Require Import List Sorting.Sorted Permutation.
From Verif.Model Require Import Base Util Num Roots Poly FT SVE Basis.
From Verif.Spec Require Import SPoly SFT SSVE SBasis.
From Verif.Proofs Require Import BaseFacts UtilFacts PPolyFacts SVEFacts FTCall FTProps BasisFacts BasisInit.
Import ListNotations.
Open Scope R_scope.
Notation length := List.length.

(** ** part *)
Lemma part_prefix r eps ms u s v :
  length (vcols (su r)) = length (ss r) -> length (vcols (sv r)) = length (ss r) ->
  part r eps ms = Ok (u, s, v) ->
  exists n, (n <= length (ss r))%nat /\ u = take n (su r) /\ s = firstn n (ss r) /\ v = take n (sv r).
Proof.
  intros Lu Lv H. assert (Hs : ss r <> []).
  { intros E. destruct (part_errors r eps ms) as [H1 _]. rewrite (H1 E) in H. discriminate. }
  destruct (part_inv r eps ms _ Hs H) as (e & He & Hf).
  rewrite (part_val r eps ms e Lu Lv Hs He Hf) in H. injection H as <- <- <-.
  exists (part_size (ss r) e ms). split; [apply part_size_le|auto].
Qed.

Lemma part_limits r eps e z :
  length (vcols (su r)) = length (ss r) -> length (vcols (sv r)) = length (ss r) -> ss r <> [] ->
  eff_eps eps (seps r) = Some e ->
  let result n := Ok (take n (su r), firstn n (ss r), take n (sv r)) in
  part r eps None = result (nabove e (ss r)) /\
  ((0 <= z)%Z -> part r eps (Some (PyInt z)) = result (Nat.min (Z.to_nat z) (nabove e (ss r)))) /\
  ((z < 0)%Z -> part r eps (Some (PyInt z)) = result (Z.to_nat (Z.of_nat (length (ss r)) + z))).
Proof.
  intros Lu Lv Hs He result. unfold result. split; [|split].
  - rewrite (part_val r eps None e) by (auto; simpl; auto). reflexivity.
  - intros Hz. rewrite (part_val r eps _ e) by (auto; simpl; auto). cbn [part_size].
    rewrite (proj2 (Z.ltb_ge z 0)) by lia. reflexivity.
  - intros Hz. rewrite (part_val r eps _ e) by (auto; simpl; auto). cbn [part_size].
    rewrite (proj2 (Z.ltb_lt z 0)) by lia. reflexivity.
Qed.

Lemma nth_error_firstn {A} (l : list A) k i : (i < k)%nat -> nth_error (firstn k l) i = nth_error l i.
Proof.
  revert k i. induction l as [|a l IH]; intros k i H; [rewrite firstn_nil; auto|].
  destruct k; [lia|]. destruct i; simpl; auto. apply IH. lia.
Qed.

Lemma filter_true {A} (f : A -> bool) l : (forall x, In x l -> f x = true) -> filter f l = l.
Proof.
  induction l as [|y l IH]; intros H; auto. simpl. rewrite H by (left; auto). f_equal.
  apply IH. intros; apply H; right; auto.
Qed.

Lemma sorted_ge s i j x y : nonincreasing s -> (i <= j)%nat -> nth_error s i = Some x -> nth_error s j = Some y -> y <= x.
Proof.
  intros Hs Hij Hi Hj. destruct (Nat.eq_dec i j) as [->|Hne]; [rewrite Hj in Hi; injection Hi as <-; lra|].
  assert (Hjl : (j < length s)%nat) by (apply nth_error_Some; congruence).
  pose proof (proj1 (StronglySorted_nth (fun a b => b <= a) s 0) Hs i j ltac:(lia) Hjl) as H0.
  rewrite (nth_error_nth _ _ _ Hi), (nth_error_nth _ _ _ Hj) in H0. auto.
Qed.

Lemma part_threshold e s : 0 <= e -> nonincreasing s ->
  forall j x, nth_error s j = Some x -> ((j < nabove e s)%nat <-> e * nth 0 s 0 <= x).
Proof.
  intros He Hs j x Hj. pose proof (nabove_prefix e s He Hs) as E.
  split.
  - intros Hlt. assert (Hin : In x (firstn (nabove e s) s)).
    { apply (nth_error_In _ j). rewrite nth_error_firstn; auto. }
    rewrite E in Hin. apply filter_In in Hin. apply Rleb_true, Hin.
  - intros Hx. destruct (lt_dec j (nabove e s)) as [|Hge]; auto. exfalso.
    assert (Hjl : (j < length s)%nat) by (apply nth_error_Some; congruence).
    assert (El : filter (fun x => Rleb (e * nth 0 s 0) x) (firstn (S j) s) = firstn (S j) s).
    { apply filter_true. intros y Hy. apply Rleb_true. apply Rle_trans with x; auto.
      apply In_nth_error in Hy. destruct Hy as [i Hi].
      assert (Hij : (i < S j)%nat).
      { apply Nat.lt_le_trans with (length (firstn (S j) s)); [apply nth_error_Some; congruence|rewrite firstn_length; lia]. }
      rewrite nth_error_firstn in Hi by auto. apply (sorted_ge s i j); auto. lia. }
    assert ((S j <= nabove e s)%nat); [|lia].
    unfold nabove. set (f := fun x => Rleb (e * nth 0 s 0) x) in *.
    replace (filter f s) with (filter f (firstn (S j) s ++ skipn (S j) s)) by (rewrite firstn_skipn; auto).
    rewrite filter_app, app_length, El, firstn_length_le by lia. lia.
Qed.

(** ** Accuracy and significance *)
Lemma sfactor_pos beta wmax yp : 0 < beta -> 0 < wmax -> 0 < sfactor beta wmax yp.
Proof.
  intros Hb Hw. unfold sfactor. apply Rmult_lt_0_compat.
  - apply sqrt_lt_R0. apply Rmult_lt_0_compat; lra.
  - apply powerRZ_lt. auto.
Qed.

Lemma the_basis_size st beta wmax k r n f f' : (n <= length (ss r))%nat ->
  bsize (the_basis st beta wmax k r n f f') = n.
Proof. intros H. unfold bsize. cbn [the_basis bs]. rewrite map_length. apply firstn_length_le. auto. Qed.

Lemma sval_pos r l : sve_ok r -> (l < length (ss r))%nat -> 0 < sval r l.
Proof.
  intros (_ & _ & _ & _ & _ & _ & _ & _ & _ & Hp & _) Hl. rewrite Forall_forall in Hp. apply Hp, nth_In. auto.
Qed.

Lemma sval_mono r i j : sve_ok r -> (i <= j < length (ss r))%nat -> sval r j <= sval r i.
Proof.
  intros (_ & _ & _ & _ & _ & _ & _ & _ & _ & _ & Hm) H. unfold sval.
  apply (sorted_ge (ss r) i j); auto; try lia; apply nth_error_nth'; lia.
Qed.

Section Built.
Variable compute : kern -> option R -> res sve_result.

Lemma basis_accuracy b : built compute b ->
  let r := bsve b in let n := bsize b in let N := length (ss r) in
  (0 < n <= N)%nat /\
  ((n < N)%nat -> bacc b = sval r n / sval r 0 /\ forall j, (n <= j < N)%nat -> sval r j / sval r 0 <= bacc b) /\
  (n = N -> bacc b = sval r (N - 1) / sval r 0) /\ 0 < bacc b <= 1 /\
  significance b = map (fun s => s / sval r 0) (firstn n (ss r)) /\
  nth_error (significance b) 0 = Some 1 /\ nonincreasing (significance b).
Proof.
  intros (st & beta & wmax & eps & ms & ker & sve & H & Hok & Hw).
  destruct (basis_init_inv _ _ _ _ _ _ _ _ _ H Hok Hw)
    as (k & r & lam & q & e & n & f & f' & Hb & Hk & Hr & Hokr & He & Hfl & Hn & Hnl & Hlam & Hq & Ef & Ef' & ->).
  cbv zeta. rewrite the_basis_size by lia. cbn [bsve the_basis bacc].
  pose proof (sval_pos r 0 Hokr ltac:(lia)) as P0.
  assert (Hsig : significance (the_basis st beta wmax k r n f f') = map (fun s => s / sval r 0) (firstn n (ss r))).
  { unfold significance. cbn [bs the_basis]. set (c := sfactor beta wmax (kyp k)).
    pose proof (sfactor_pos beta wmax (kyp k) Hb Hw) as Hc. fold c in Hc.
    assert (E0 : nth 0 (map (fun x => c * x) (firstn n (ss r))) 0 = c * sval r 0).
    { destruct n; [lia|]. unfold sval. destruct (ss r); [simpl in Hnl; lia|]. reflexivity. }
    rewrite E0, map_map. apply map_ext. intros a. field. lra. }
  split; [lia|]. split; [|split; [|split; [|split; [|split]]]].
  - intros Hlt. unfold acc_val. rewrite (proj2 (Nat.ltb_lt _ _) Hlt). split; auto.
    intros j Hj. apply Rmult_le_compat_r; [apply Rlt_le, Rinv_0_lt_compat; auto|]. apply (sval_mono r n j Hokr). lia.
  - intros ->. unfold acc_val. rewrite Nat.ltb_irrefl. auto.
  - unfold acc_val. assert (Hx : forall i, (i < length (ss r))%nat -> 0 < nth i (ss r) 0 / nth 0 (ss r) 0 <= 1).
    { intros i Hi. pose proof (sval_pos r i Hokr Hi) as Pi. pose proof (sval_mono r 0 i Hokr ltac:(lia)) as Mi.
      unfold sval in *. split; [apply Rdiv_lt_0_compat; auto|].
      apply (Rmult_le_reg_r (nth 0 (ss r) 0)); auto. unfold Rdiv. rewrite Rmult_assoc, Rinv_l by lra. lra. }
    destruct (n <? length (ss r))%nat eqn:E; apply Hx; [apply Nat.ltb_lt in E|]; lia.
  - auto.
  - rewrite Hsig. unfold sval in *. destruct n; [lia|]. destruct (ss r); [simpl in Hnl; lia|]. simpl in *.
    f_equal. field. lra.
  - rewrite Hsig. destruct Hokr as (_ & _ & _ & _ & _ & _ & _ & _ & _ & _ & Hm).
    unfold nonincreasing. apply StronglySorted_map with (P := fun a b => b <= a).
    + intros x y Hxy. apply Rmult_le_compat_r; auto. apply Rlt_le, Rinv_0_lt_compat; auto.
    + clear -Hm. revert Hm. unfold nonincreasing. generalize (ss r) as l. intros l Hm.
      rewrite <- (firstn_skipn n l) in Hm. apply StronglySorted_app_inv in Hm. tauto.
Qed.

(** ** Slicing *)
Lemma kernel_again st lam ker k : get_kernel st lam ker = Ok k -> get_kernel st lam (Some k) = Ok k.
Proof.
  unfold get_kernel. destruct (negb (stat_in st)); [discriminate|]. destruct ker as [k'|].
  - destruct (klam k') as [l|] eqn:El.
    + destruct (lam_close l lam) eqn:Ec; [|discriminate]. intros H. injection H as <-. rewrite El, Ec. auto.
    + intros H. injection H as <-. rewrite El. auto.
  - intros H. injection H as <-. cbn [logistic klam].
    unfold lam_close. rewrite (proj2 (Rleb_true _ _)); auto.
    replace (lam - lam) with 0 by ring. rewrite Rabs_R0. apply Rmult_le_pos; [lra|apply Rabs_pos].
Qed.

Lemma nabove_pos e r : sve_ok r -> e <= 1 -> (0 < nabove e (ss r))%nat.
Proof.
  intros Hok He. pose proof (sval_pos r 0 Hok) as H. destruct Hok as (_ & _ & _ & _ & _ & _ & _ & _ & Hs & _ & _).
  unfold nabove, sval in *. destruct (ss r) as [|s0 st]; [easy|]. simpl in *. specialize (H ltac:(lia)).
  rewrite (proj2 (Rleb_true (e * s0) s0)) by nra. simpl. lia.
Qed.

Lemma firstn_firstn_le {A} (l : list A) m n : (m <= n)%nat -> firstn m (firstn n l) = firstn m l.
Proof. intros H. rewrite firstn_firstn, Nat.min_l; auto. Qed.

(** Relation between two bases made of the same expansion. *)
Lemma basis_prefix st beta wmax k r q lam n m f f1 f2 :
  sve_ok r -> ft_init (full_u r beta) q (AsympAt (40 * lam)) None = Ok f -> q <> FAny ->
  ft_slice f (Z.of_nat n) = Ok f1 -> ft_slice f (Z.of_nat m) = Ok f2 -> (m <= n)%nat ->
  let b := the_basis st beta wmax k r n f f1 in let b' := the_basis st beta wmax k r m f f2 in
  bu b' = take m (bu b) /\ bs b' = firstn m (bs b) /\ bv b' = take m (bv b) /\
  forall ns, ft_call (buhat b') ns = (do M <- ft_call (buhat b) ns; Ok (firstn m M)).
Proof.
  intros Hok Hf Hq H1 H2 Hle b b'. destruct Hok as (Fu & _). cbn [b b' the_basis bu bs bv buhat].
  split; [|split; [|split]].
  - unfold take. cbn [vgeom vcols]. rewrite firstn_firstn_le; auto.
  - rewrite !firstn_map, firstn_firstn_le; auto.
  - unfold take. cbn [vgeom vcols]. rewrite firstn_firstn_le; auto.
  - intros ns.
    destruct (ft_slicing _ _ _ _ (Z.of_nat n) (full_fresh r beta Fu) Hf Hq) as (g1 & G1 & G1').
    destruct (ft_slicing _ _ _ _ (Z.of_nat m) (full_fresh r beta Fu) Hf Hq) as (g2 & G2 & G2').
    rewrite H1 in G1. injection G1 as <-. rewrite H2 in G2. injection G2 as <-.
    rewrite G1', G2'. destruct (ft_call f ns) as [M|]; auto. cbn [bind]. rewrite !slice_nat, firstn_firstn_le; auto.
Qed.
End Built.
