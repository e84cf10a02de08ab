(** What the constructor of a finite-temperature basis returns. *)
From Coq Require Import Reals ZArith Arith Bool Lra Lia String Ascii.
From Coquelicot Require Import Coquelicot.
From Coq Require Import List Sorting.Sorted Permutation.
From Verif.Model Require Import Base Util Num Roots Poly FT SVE Basis.
From Verif.Spec Require Import SPoly SFT SSVE SBasis.
From Verif.Proofs Require Import BaseFacts UtilFacts PPolyFacts SVEFacts FTCall FTProps BasisFacts.
Import ListNotations.
Open Scope R_scope.
Notation length := List.length.

Definition full_u (r : sve_result) (beta : R) : vpoly :=
  VPoly (vgeom (su r)) (scaled_cols (sqrt beta) (vcols (su r))).

Definition acc_val (s : list R) (n : nat) : R :=
  if (n <? length s)%nat then nth n s 0 / nth 0 s 0 else nth (n - 1) s 0 / nth 0 s 0.

Definition sfactor (beta wmax : R) (yp : Z) : R := sqrt (beta / 2 * wmax) * powerRZ wmax (- yp).

Definition the_basis st beta wmax k r n f f' : basis :=
  Basis st beta wmax k r (acc_val (ss r) n)
    (VPoly (scaled_geom (beta / 2) (beta / 2) (vgeom (su r))) (firstn n (vcols (su r))))
    (map (fun x => sfactor beta wmax (kyp k) * x) (firstn n (ss r)))
    (VPoly (scaled_geom 0 wmax (vgeom (sv r))) (firstn n (vcols (sv r)))) f f'.

Lemma full_fresh r beta : fresh (su r) -> fresh (full_u r beta).
Proof. intros (H1 & H2 & H3). split; auto. Qed.

Lemma stat_cases st : stat_in st = true <-> st = ""%string \/ st = "B"%string \/ st = "F"%string \/ st = "BF"%string.
Proof.
  split.
  - unfold stat_in. destruct st as [|a [|b [|c st]]]; auto.
    + destruct (Ascii.ascii_dec a "B"%char) as [->|Ha]; auto.
      destruct (Ascii.ascii_dec a "F"%char) as [->|Hb]; auto.
      simpl. destruct (Ascii.ascii_dec a "B"); [congruence|].
      destruct (Ascii.ascii_dec a "F"); [congruence|]. discriminate.
    + simpl. destruct (Ascii.ascii_dec a "B") as [->|Ha].
      * destruct (Ascii.ascii_dec b "F") as [->|Hb]; auto.
        simpl. discriminate.
      * destruct (Ascii.ascii_dec a "F") as [->|Hb]; simpl; discriminate.
    + simpl. destruct (Ascii.ascii_dec a "B") as [->|Ha].
      * destruct (Ascii.ascii_dec b "F") as [->|Hb]; simpl; discriminate.
      * destruct (Ascii.ascii_dec a "F"); simpl; discriminate.
  - intros [->|[->|[->| ->]]]; reflexivity.
Qed.

Section Init.
Variable compute : kern -> option R -> res sve_result.

Lemma basis_init_ok st beta wmax eps ms ker sve k r lam q e n :
  0 < beta -> 0 < wmax -> get_kernel st (beta * wmax) ker = Ok k ->
  match sve with Some r' => Ok r' | None => compute k eps end = Ok r -> sve_ok r ->
  eff_eps eps (seps r) = Some e -> ~ float_below ms (nabove e (ss r)) ->
  n = part_size (ss r) e ms -> (0 < n)%nat -> klam k = Some lam -> even_odd st = Ok q ->
  exists f f', ft_init (full_u r beta) q (AsympAt (40 * lam)) None = Ok f /\
    ft_slice f (Z.of_nat n) = Ok f' /\
    basis_init compute st beta wmax eps ms ker sve = Ok (the_basis st beta wmax k r n f f').
Proof.
  intros Hb Hw Hk Hr Hok He Hf Hn Hpos Hlam Hq.
  pose proof Hok as (Fu & Fv & U1 & U2 & V1 & V2 & Lu & Lv & Hs & Hp & Hm).
  assert (Hqa : q <> FAny).
  { unfold even_odd in Hq. destruct (String.eqb st "F"); [congruence|]. destruct (String.eqb st "B"); congruence. }
  destruct (ft_derivative_init (full_u r beta) q (AsympAt (40 * lam)) 0 (full_fresh r beta Fu) U1 U2 Hqa) as [f Ef].
  rewrite vderiv_0 in Ef.
  destruct (ft_init_slice _ _ _ _ (Z.of_nat n) _ Ef Hqa (full_fresh r beta Fu)) as (f' & Ef' & _).
  exists f, f'. split; auto. split; auto.
  unfold basis_init. rewrite (proj2 (Rltb_true 0 beta) Hb). rewrite (proj2 (Rleb_true 0 wmax)) by lra. cbn [negb].
  rewrite Hk. cbn [bind]. rewrite Hr. cbn [bind].
  rewrite (part_val r eps ms e Lu Lv Hs He Hf). rewrite <- Hn. cbn [bind].
  assert (Hle : (n <= length (ss r))%nat) by (rewrite Hn; apply part_size_le).
  assert (Hfn : length (firstn n (ss r)) = n) by (apply firstn_length_le; auto).
  assert (E0 : forall (X : R -> res R),
    match firstn n (ss r) with [] => Raise IndexError | s0 :: _ => X s0 end = X (nth 0 (ss r) 0)).
  { intros X. destruct (ss r) as [|s0 st'] eqn:Es; [easy|]. destruct n; [lia|]. reflexivity. }
  rewrite (E0 (fun s0 => if (length (firstn n (ss r)) <? length (ss r))%nat
                 then Ok (nth (length (firstn n (ss r))) (ss r) 0 / s0)
                 else Ok (last (firstn n (ss r)) 0 / s0))).
  rewrite Hfn.
  assert (Ea : (if (n <? length (ss r))%nat then Ok (nth n (ss r) 0 / nth 0 (ss r) 0)
                else Ok (last (firstn n (ss r)) 0 / nth 0 (ss r) 0)) = Ok (acc_val (ss r) n)).
  { unfold acc_val. destruct (n <? length (ss r))%nat eqn:E; auto. do 2 f_equal.
    rewrite last_nth, Hfn. apply nth_firstn. lia. }
  rewrite Ea. cbn [bind].
  rewrite (rescaled_val (take n (su r)) (beta / 2) (beta / 2)) by (try lra; try (exact (proj1 Fu)); intros; ring).
  cbn [bind].
  rewrite (rescaled_val (take n (sv r)) 0 wmax) by (try lra; try (exact (proj1 Fv)); intros; ring).
  cbn [bind]. rewrite Hlam, Hq. cbn [bind]. fold (full_u r beta). rewrite Ef. cbn [bind].
  rewrite Ef'. cbn [bind]. reflexivity.
Qed.

Lemma part_inv r eps ms x : ss r <> [] -> part r eps ms = Ok x ->
  exists e, eff_eps eps (seps r) = Some e /\ ~ float_below ms (nabove e (ss r)).
Proof.
  intros Hs Hx. destruct (eff_eps eps (seps r)) as [e|] eqn:E.
  - exists e. split; auto. intros Hf. destruct ms as [[z|y]|]; try easy.
    rewrite (part_float r eps y e Hs E Hf) in Hx. discriminate.
  - destruct (part_errors r eps ms) as [_ H]. rewrite (H Hs E) in Hx. discriminate.
Qed.

(** Everything there is to know about a successful construction. *)
Lemma basis_init_inv st beta wmax eps ms ker sve b :
  basis_init compute st beta wmax eps ms ker sve = Ok b -> sve_ok (bsve b) -> 0 < wmax ->
  exists k r lam q e n f f',
    0 < beta /\ get_kernel st (beta * wmax) ker = Ok k /\
    match sve with Some r' => Ok r' | None => compute k eps end = Ok r /\ sve_ok r /\
    eff_eps eps (seps r) = Some e /\ ~ float_below ms (nabove e (ss r)) /\
    n = part_size (ss r) e ms /\ (0 < n <= length (ss r))%nat /\ klam k = Some lam /\ even_odd st = Ok q /\
    ft_init (full_u r beta) q (AsympAt (40 * lam)) None = Ok f /\ ft_slice f (Z.of_nat n) = Ok f' /\
    b = the_basis st beta wmax k r n f f'.
Proof.
  intros H Hok Hw. pose proof H as H0. unfold basis_init in H.
  destruct (Rltb 0 beta) eqn:Eb; [|discriminate]. apply Rltb_true in Eb. cbn [negb] in H.
  destruct (Rleb 0 wmax) eqn:Ew; [|discriminate]. cbn [negb] in H.
  destruct (get_kernel st (beta * wmax) ker) as [k|] eqn:Ek; [|discriminate]. cbn [bind] in H.
  destruct (match sve with Some r' => Ok r' | None => compute k eps end) as [r|] eqn:Er; [|discriminate].
  cbn [bind] in H.
  destruct (part r eps ms) as [[[u s] v]|] eqn:Ep; [|discriminate]. cbn [bind] in H.
  destruct (match s with [] => Raise IndexError | s0 :: _ => _ end) as [acc|] eqn:Ea; [|discriminate]. cbn [bind] in H.
  destruct (rescaled u _ _) as [u'|] eqn:Eu; [|discriminate]. cbn [bind] in H.
  destruct (rescaled v _ _) as [v'|] eqn:Ev; [|discriminate]. cbn [bind] in H.
  destruct (klam k) as [lam|] eqn:El; [|discriminate].
  destruct (even_odd st) as [q|] eqn:Eq; [|discriminate]. cbn [bind] in H.
  destruct (ft_init _ q _ None) as [f|] eqn:Ef; [|discriminate]. cbn [bind] in H.
  destruct (ft_slice f _) as [f'|] eqn:Ef'; [|discriminate]. cbn [bind] in H.
  assert (Hbr : bsve b = r) by (injection H as <-; reflexivity). rewrite Hbr in Hok.
  pose proof Hok as (_ & _ & _ & _ & _ & _ & Lu & Lv & Hs & _ & _).
  destruct (part_inv r eps ms _ Hs Ep) as (e & He & Hfl).
  rewrite (part_val r eps ms e Lu Lv Hs He Hfl) in Ep. injection Ep as <- <- <-.
  set (n := part_size (ss r) e ms) in *.
  assert (Hpos : (0 < n)%nat).
  { destruct n; [|lia]. simpl in Ea. discriminate. }
  destruct (basis_init_ok st beta wmax eps ms ker sve k r lam q e n Eb Hw Ek Er Hok He Hfl eq_refl Hpos El Eq)
    as (f1 & f2 & H1 & H2 & H3).
  rewrite H0 in H3. injection H3 as ->.
  exists k, r, lam, q, e, n, f1, f2. repeat match goal with |- _ /\ _ => split end; auto. apply part_size_le.
Qed.
End Init.
