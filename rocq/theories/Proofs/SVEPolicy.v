(** Accuracy policy and SVD dispatch; example expansions. *)
From Coq Require Import Reals ZArith Arith Bool Lra Lia String Ascii.
From Coquelicot Require Import Coquelicot.
From Coq Require Import List Sorting.Sorted Permutation.
From Verif.Model Require Import Base Util Num Roots Poly FT SVE Basis.
From Verif.Spec Require Import SRoots SPoly SFT SSVE SBasis.
From Verif.Proofs Require Import BaseFacts UtilFacts PPolyFacts PPolyInt PPolyExamples SVEFacts FTCall FTProps
  BasisFacts BasisInit BasisProps BasisOps BasisPhys BasisPoints.
Import ListNotations.
Open Scope R_scope.
Notation length := List.length.

Lemma xltb_below e s : xltb e (Fin s) = true <-> below e s.
Proof.
  unfold xltb. destruct e as [x| | |]; simpl; try (split; easy).
  rewrite andb_true_iff, negb_true_iff, Rleb_true, Reqb_false. lra.
Qed.

Lemma xltb_not_below e s : xltb e (Fin s) = false <-> ~ below e s.
Proof. rewrite <- xltb_below. destruct (xltb e (Fin s)); split; congruence. Qed.

Lemma policy hx dd eps work strat safe t st warn :
  safe_eps hx dd eps work strat = (safe, t, st, warn) ->
  (forall w, work = Some w -> t = w) /\
  (work = None -> (eps = None \/ (exists e, eps = Some e /\ below e (/ 10 ^ 8))) -> t = if hx then DDouble else Float64) /\
  (forall e, work = None -> eps = Some e -> ~ below e (/ 10 ^ 8) -> t = Float64) /\
  (t = Float64 -> safe = / 10 ^ 8) /\
  (t <> Float64 -> safe = sqrt (finfo_eps dd t)) /\
  (forall s, strat = Some s -> st = s) /\
  (warn = true <-> strat = None /\ exists e, eps = Some e /\ below e safe) /\
  (strat = None -> st = if warn then "accurate"%string else "fast"%string).
Proof.
  unfold safe_eps, max_dtype. intros H.
  set (t0 := match work with None => _ | Some t => t end) in H.
  set (s0 := match t0 with Float64 => / 10 ^ 8 | _ => sqrt (finfo_eps dd t0) end) in H.
  assert (Es : safe = s0 /\ t = t0).
  { destruct strat; [injection H as <- <- _ _; auto|]. destruct eps as [e|]; [|injection H as <- <- _ _; auto].
    destruct (xltb e (Fin s0)); injection H as <- <- _ _; auto. }
  destruct Es as [-> ->]. repeat match goal with |- _ /\ _ => split end.
  - intros w ->. reflexivity.
  - intros -> [->|(e & -> & He)]; [reflexivity|]. unfold t0. rewrite (proj2 (xltb_below e _) He). reflexivity.
  - intros e -> -> He. unfold t0. rewrite (proj2 (xltb_not_below e _) He). reflexivity.
  - intros E. unfold s0. rewrite E. reflexivity.
  - intros E. unfold s0. destruct t0; congruence.
  - intros s ->. injection H; auto.
  - destruct strat as [s|].
    + injection H as <- <-. split; [discriminate|intros [? _]; discriminate].
    + destruct eps as [e|].
      * destruct (xltb e (Fin s0)) eqn:E; injection H as <- <-.
        -- split; auto. intros _. split; auto. exists e. split; auto. apply xltb_below; auto.
        -- split; [discriminate|]. intros (_ & e' & [= <-] & He). apply xltb_not_below in E. contradiction.
      * injection H as <- <-. split; [discriminate|]. intros (_ & e' & ? & _). discriminate.
  - intros ->. destruct eps as [e|]; [destruct (xltb e (Fin s0))|]; injection H as <- <-; reflexivity.
Qed.

Lemma dispatch hx hj t st :
  (hx = true -> t = DDouble -> svd_dispatch hx hj t st = Ok (AlgDDouble, false)) /\
  (t <> DDouble ->
     (st = "fast"%string -> svd_dispatch hx hj t st = Ok (AlgID, false)) /\
     (st = "default"%string -> svd_dispatch hx hj t st = Ok (AlgLapack, false)) /\
     (st = "accurate"%string -> svd_dispatch hx hj t st = Ok (if hj then AlgJacobi else AlgLapack, negb hj)) /\
     (~ In st ["fast"; "default"; "accurate"]%string -> svd_dispatch hx hj t st = Raise ValueError)).
Proof.
  split.
  - intros -> ->. reflexivity.
  - intros Ht. assert (E : svd_dispatch hx hj t st = svd_dispatch false hj Float64 st).
    { unfold svd_dispatch. destruct hx, t; auto. congruence. }
    rewrite E. unfold svd_dispatch. repeat match goal with |- _ /\ _ => split end.
    + intros ->. reflexivity.
    + intros ->. reflexivity.
    + intros ->. destruct hj; reflexivity.
    + intros Hn. simpl in Hn.
      destruct (String.eqb st "fast") eqn:E1; [apply String.eqb_eq in E1; exfalso; auto|].
      destruct (String.eqb st "default") eqn:E2; [apply String.eqb_eq in E2; exfalso; auto|].
      destruct (String.eqb st "accurate") eqn:E3; [apply String.eqb_eq in E3; exfalso; auto 6|]. reflexivity.
Qed.

(** The strategy that the policy returns is one the SVD knows. *)
Lemma policy_dispatch hx hj dd eps work strat safe t st warn :
  safe_eps hx dd eps work strat = (safe, t, st, warn) ->
  (strat = None \/ (exists s, strat = Some s /\ In s ["fast"; "default"; "accurate"]%string)) ->
  exists alg w, svd_dispatch hx hj t st = Ok (alg, w).
Proof.
  intros H Hs. destruct (policy _ _ _ _ _ _ _ _ _ H) as (_ & _ & _ & _ & _ & P1 & _ & P2).
  assert (Hin : In st ["fast"; "default"; "accurate"]%string).
  { destruct Hs as [->|(s & -> & Hs)]; [rewrite P2 by auto; destruct warn; simpl; auto|rewrite (P1 s); auto]. }
  unfold svd_dispatch. destruct Hin as [<-|[<-|[<-|[]]]]; destruct hx, t, hj; simpl; eauto.
Qed.

(** * Examples *)
Definition ex_poly : vpoly := VPoly unit_geom [square_col; line_col].
Definition ex_sve (e : R) : sve_result := SVE ex_poly [1; 1 / 2] ex_poly (Some e).
Lemma ex_poly_fresh : fresh ex_poly.
Proof. split; [exact unit_geom_ok|]. split; [simpl; lia|reflexivity]. Qed.
Lemma ex_sve_ok e : sve_ok (ex_sve e).
Proof.
  pose proof ex_poly_fresh. unfold sve_ok, ex_sve. cbn [su sv ss].
  repeat match goal with |- _ /\ _ => split end; auto; try reflexivity; try discriminate.
  - repeat constructor; lra.
  - repeat constructor; lra.
Qed.
Definition no_compute : kern -> option R -> res sve_result := fun _ _ => Raise ValueError.
Lemma ex_nabove e : (e <= 1 / 2 -> nabove e [1; 1 / 2] = 2%nat) /\ (1 / 2 < e <= 1 -> nabove e [1; 1 / 2] = 1%nat).
Proof.
  unfold nabove. cbn [nth filter]. split; intros H.
  - rewrite (proj2 (Rleb_true (e * 1) 1)), (proj2 (Rleb_true (e * 1) (1 / 2))) by lra. reflexivity.
  - rewrite (proj2 (Rleb_true (e * 1) 1)), (proj2 (Rleb_false (e * 1) (1 / 2))) by lra. reflexivity.
Qed.
Lemma ex_basis e e0 : e <= 1 -> exists b, basis_init no_compute "F" 2 3 (Some e) None None (Some (ex_sve e0)) = Ok b /\
  built no_compute b /\ bsve b = ex_sve e0 /\ bsize b = nabove e [1; 1 / 2].
Proof.
  intros He. destruct (init_accepts no_compute "F" 2 3 (Some e) None None (ex_sve e0) e) as (b & H1 & H2 & H3 & H4 & H5 & H6 & H7 & H8);
    auto; try lra; [apply ex_sve_ok|]. exists b. auto.
Qed.

Lemma slice_enlarges : exists b b', built no_compute b /\ bsize b = 1%nat /\
  basis_getitem no_compute b (IdxSlice None None None) = Ok b' /\ bsize b' = 2%nat.
Proof.
  destruct (ex_basis (9 / 10) (1 / 10) ltac:(lra)) as (b & _ & Hb & Hr & Hs).
  rewrite (proj2 (ex_nabove _)) in Hs by lra.
  destruct (slice_size no_compute b (1 / 10) (IdxSlice None None None) None Hb) as (b' & H1 & _ & H2 & _); try lra.
  - rewrite Hr; reflexivity.
  - exists None, None. auto.
  - auto.
  - exists b, b'. rewrite H2, Hr. cbn [ex_sve ss]. rewrite (proj1 (ex_nabove _)) by lra. auto.
Qed.

Lemma rescale_shrinks : exists b b', built no_compute b /\ bsize b = 2%nat /\
  rescale no_compute b 5 = Ok b' /\ bsize b' = 1%nat.
Proof.
  destruct (ex_basis (1 / 10) (9 / 10) ltac:(lra)) as (b & _ & Hb & Hr & Hs).
  rewrite (proj1 (ex_nabove _)) in Hs by lra.
  destruct (rescale_ok no_compute b (9 / 10) 5 Hb) as (b' & lam & H1 & _ & _ & _ & _ & _ & _ & _ & H2); try lra.
  - rewrite Hr; reflexivity.
  - exists b, b'. rewrite H2, Hs, Hr. cbn [ex_sve ss]. rewrite (proj2 (ex_nabove _)) by lra. auto.
Qed.

(** The functions listed in the other order: the root of x^2 is found twice. *)
Definition ex_sve2 : sve_result := SVE (VPoly unit_geom [line_col; square_col]) [1; 1 / 2] (VPoly unit_geom [line_col; square_col]) (Some (1 / 10)).
Lemma ex_sve2_ok : sve_ok ex_sve2.
Proof.
  assert (H : fresh (VPoly unit_geom [line_col; square_col])) by exact ex_poly_fresh. unfold sve_ok, ex_sve2. cbn [su sv ss].
  repeat match goal with |- _ /\ _ => split end; auto; try reflexivity; try discriminate.
  - repeat constructor; lra.
  - repeat constructor; lra.
Qed.
Lemma points_repeated : exists b pts w, built no_compute b /\
  ends_with (fun fuel => default_tau (fun x => x) fuel b (Some 1%Z)) (Ok (pts, w)) /\ ~ NoDup pts.
Proof.
  destruct (init_accepts no_compute "F" 2 3 None None None ex_sve2 (1 / 10)) as (b & H1 & H2 & H3 & H4 & H5 & H6 & H7 & H8);
    auto; try lra; [apply ex_sve2_ok|].
  destruct (even_roots unit_geom square_col 2 unit_geom_ok ltac:(lia) eq_refl) as (L & G & rs & [m Hm] & _ & _ & _ & _ & _ & Hc).
  assert (Hn : ~ NoDup L).
  { intros Hn. rewrite (NoDup_count_occ Req_EM_T) in Hn. specialize (Hn (centre unit_geom)).
    rewrite Hc in Hn. destruct (Req_EM_T _ _) as [_|ne]; [lia|]. apply ne, square_centre. }
  exists b, (map (fun x => bbeta b / 2 * (x + 1)) L), (negb (Z.of_nat (length L) =? 1)%Z).
  split; auto. split.
  - exists m. intros fuel Hf. unfold default_tau. rewrite H6. cbn [ex_sve2 su npoints_or_size].
    unfold default_sampling_points. cbn [vgeom]. change (gxmin unit_geom) with (-1). change (gxmax unit_geom) with 1.
    rewrite (proj2 (Reqb_true (-1) (-1))), (proj2 (Reqb_true 1 1)) by auto. cbn [negb orb].
    cbn [vcols List.length]. change (1 <? Z.of_nat 2)%Z with true. cbv iota.
    change (getitem (VPoly unit_geom [line_col; square_col]) 1) with (Ok (SPoly unit_geom square_col)). cbv iota beta.
    rewrite Hm by auto. reflexivity.
  - intros Hd. apply Hn. apply (NoDup_map_inv _ _ Hd).
Qed.

Lemma policy_types hx dd eps work strat safe t st warn :
  safe_eps hx dd eps work strat = (safe, t, st, warn) ->
  (forall w, work = Some w -> t = w) /\
  (work = None -> (eps = None \/ (exists e, eps = Some e /\ below e (/ 10 ^ 8))) -> t = if hx then DDouble else Float64) /\
  (forall e, work = None -> eps = Some e -> ~ below e (/ 10 ^ 8) -> t = Float64) /\
  (t = Float64 -> safe = / 10 ^ 8) /\
  (t = DDouble -> safe = sqrt dd) /\ (forall e, t = OtherType e -> safe = sqrt e) /\
  (forall s, strat = Some s -> st = s) /\
  (warn = true <-> strat = None /\ exists e, eps = Some e /\ below e safe) /\
  (strat = None -> st = if warn then "accurate"%string else "fast"%string).
Proof.
  intros H. destruct (policy _ _ _ _ _ _ _ _ _ H) as (H1 & H2 & H3 & H4 & H5 & H6). do 4 (split; [assumption|]).
  split; [intros ->; apply H5; discriminate|]. split; [intros e ->; apply H5; discriminate|exact H6].
Qed.
