(** Proofs about the values in Matrix Market files. *)
From Coq Require Import Reals ZArith Lia Lra.
From Flocq Require Import Core Relative.
From Verif Require Import MmFpModel.
Local Open Scope R_scope.

#[local] Instance prec24 : Prec_gt_0 24 := eq_refl.
#[local] Instance prec53 : Prec_gt_0 53 := eq_refl.
#[local] Instance prec15 : Prec_gt_0 15 := eq_refl.

Section Gap.
  Variable beta : radix.
  Variable fexp : Z -> Z.
  Context {V : Valid_exp fexp} {Mo : Monotone_exp fexp}.
  Variable p : Z.
  Hypothesis Hp : (0 < p)%Z.
  Hypothesis Hf : forall e, (e - p <= fexp e)%Z.
  Local Notation fmt := (generic_format beta fexp).

  Lemma ulp_ge x : x <> 0 -> bpow beta (mag beta x - p) <= ulp beta fexp x.
  Proof. intros Hx. rewrite ulp_neq_0 by auto. apply bpow_le. apply Hf. Qed.

  Lemma gap_pos x z : 0 < x -> fmt x -> fmt z -> z <> x -> bpow beta (- p) * x <= Rabs (z - x).
  Proof.
    intros Hx Fx Fz Hne.
    assert (Hb : bpow beta (- p) <= 1) by (change 1 with (bpow beta 0); apply bpow_le; lia).
    assert (Hb0 : 0 < bpow beta (- p)) by apply bpow_gt_0.
    destruct (Rtotal_order z x) as [L|[E|G]]; [|contradiction|].
    - pose proof (pred_ge_gt beta fexp z x Fz Fx L) as H1.
      pose proof (pred_ge_0 beta fexp x Hx Fx) as H0.
      assert (Hg : bpow beta (- p) * x <= x - pred beta fexp x).
      { destruct H0 as [H0|H0]; [|rewrite <- H0; nra].
        set (y := pred beta fexp x) in *.
        assert (Fy : fmt y) by (apply generic_format_pred; auto).
        pose proof (pred_plus_ulp beta fexp x Hx Fx) as Ex. fold y in Ex.
        assert (Ey : ulp beta fexp y = x - y) by lra. rewrite <- Ey.
        assert (Hm : x <= bpow beta (mag beta y)).
        { replace x with (succ beta fexp y).
          - apply succ_le_lt; auto.
            + apply generic_format_bpow. destruct (V (mag beta y)) as [W _]. apply W. apply (mag_generic_gt beta fexp y); auto. lra.
            + pose proof (bpow_mag_gt beta y) as K. rewrite Rabs_pos_eq in K by lra. exact K.
          - rewrite succ_eq_pos by lra. lra. }
        eapply Rle_trans; [|apply ulp_ge; lra]. unfold Zminus. rewrite bpow_plus. rewrite Rmult_comm.
        apply Rmult_le_compat_r; [lra|exact Hm]. }
      rewrite Rabs_left by lra. lra.
    - pose proof (succ_le_lt beta fexp x z Fx Fz G) as H1. rewrite succ_eq_pos in H1 by lra.
      rewrite Rabs_pos_eq by lra. pose proof (ulp_ge x ltac:(lra)) as H2. unfold Zminus in H2. rewrite bpow_plus in H2.
      pose proof (bpow_mag_gt beta x) as K. rewrite Rabs_pos_eq in K by lra. nra.
  Qed.

  Lemma gap x z : fmt x -> fmt z -> z <> x -> bpow beta (- p) * Rabs x <= Rabs (z - x).
  Proof.
    intros Fx Fz Hne. destruct (Rtotal_order x 0) as [L|[E|G]].
    - rewrite (Rabs_left x) by auto. replace (z - x) with (- (- z - - x)) by ring. rewrite Rabs_Ropp.
      apply gap_pos; [lra|now apply generic_format_opp|now apply generic_format_opp|lra].
    - rewrite E, Rabs_R0, Rmult_0_r. apply Rabs_pos.
    - rewrite (Rabs_pos_eq x) by lra. now apply gap_pos.
  Qed.

  (** a number closer to x than half the gap is rounded to x *)
  Lemma round_near x y : fmt x -> Rabs (y - x) < / 2 * (bpow beta (- p) * Rabs x) ->
    round beta fexp ZnearestE y = x.
  Proof.
    intros Fx H. set (z := round beta fexp ZnearestE y).
    assert (Fz : fmt z) by (apply generic_format_round; auto with typeclass_instances).
    destruct (Req_dec z x) as [E|Hne]; [exact E|]. exfalso.
    pose proof (gap x z Fx Fz Hne) as G.
    destruct (round_N_pt beta fexp (fun x => negb (Z.even x)) y) as [_ Hn].
    specialize (Hn x Fx). change (Rabs (z - y) <= Rabs (x - y)) in Hn.
    assert (Rabs (z - x) <= Rabs (z - y) + Rabs (y - x)).
    { replace (z - x) with ((z - y) + (y - x)) by ring. apply Rabs_triang. }
    rewrite (Rabs_minus_sym x y) in Hn. lra.
  Qed.
End Gap.

Lemma print_error d x : (15 <= d)%Z -> Rabs (print_digits d x - x) <= / 2 * / 100000000000000 * Rabs x.
Proof.
  intros Hd. eapply Rle_trans; [apply (relative_error_N_FLX radix10 d ltac:(lia) (fun x => negb (Z.even x)) x)|].
  apply Rmult_le_compat_r; [apply Rabs_pos|]. apply Rmult_le_compat_l; [lra|].
  apply Rle_trans with (bpow radix10 (-14)); [apply bpow_le; lia|]. simpl. lra.
Qed.

Lemma print_0 d : (0 < d)%Z -> print_digits d 0 = 0.
Proof. intros. unfold print_digits. apply round_0. auto with typeclass_instances. Qed.
Lemma to_double_0 : to_double 0 = 0. Proof. apply round_0. auto with typeclass_instances. Qed.
Lemma to_single_0 : to_single 0 = 0. Proof. apply round_0. auto with typeclass_instances. Qed.

Lemma single_near x y : is_single x -> x <> 0 -> Rabs (y - x) <= / 100000000000 * Rabs x -> to_single y = x.
Proof.
  intros Fx Hx H. unfold to_single. apply (round_near radix2 (FLT_exp (-149) 24)) with (p := 24%Z); auto.
  - lia.
  - intros e. unfold FLT_exp. lia.
  - eapply Rle_lt_trans; [exact H|]. simpl. pose proof (Rabs_pos_lt x Hx). lra.
Qed.

Lemma single_exact d x : (15 <= d)%Z -> is_single x -> file_single d x = x.
Proof.
  intros Hd Fx. unfold file_single. destruct (Req_dec x 0) as [->|Hx].
  { rewrite print_0 by lia. apply to_single_0. }
  apply single_near; auto. eapply Rle_trans; [now apply print_error|]. pose proof (Rabs_pos x). lra.
Qed.

Lemma single_size x : is_single x -> x <> 0 -> bpow radix2 (-149) <= Rabs x.
Proof.
  intros Fx Hx. 
  assert (E : generic_format radix2 (FIX_exp (-149)) x) by (eapply generic_format_FIX_FLT; exact Fx).
  apply FIX_format_generic in E as [[n e] Eg Eg2]. simpl in Eg2. subst e.
  rewrite Eg in Hx |- *. rewrite <- F2R_Zabs. unfold F2R in *. cbn [Fnum Fexp] in *.
  assert (n <> 0%Z) by (intros K; apply Hx; rewrite K; apply Rmult_0_l).
  rewrite <- (Rmult_1_l (bpow radix2 (-149))) at 1. apply Rmult_le_compat_r; [apply bpow_ge_0|]. apply IZR_le. lia.
Qed.

Lemma double_error y : bpow radix2 (-1022) <= Rabs y -> Rabs (to_double y - y) <= / 2 * / 4503599627370496 * Rabs y.
Proof.
  intros H. unfold to_double.
  eapply Rle_trans; [apply (relative_error_N_FLT radix2 (-1074) 53 ltac:(lia) (fun x => negb (Z.even x)) y)|].
  - exact H.
  - apply Rmult_le_compat_r; [apply Rabs_pos|]. simpl. lra.
Qed.

Lemma print_size d x : (15 <= d)%Z -> / 2 * Rabs x <= Rabs (print_digits d x).
Proof.
  intros Hd. pose proof (print_error d x Hd) as E. pose proof (Rabs_pos x) as Hx.
  pose proof (Rabs_triang_inv x (x - print_digits d x)) as T.
  replace (x - (x - print_digits d x)) with (print_digits d x) in T by ring.
  rewrite (Rabs_minus_sym x) in T. lra.
Qed.

Lemma single_via_double_exact d x : (15 <= d)%Z -> is_single x -> file_single_via_double d x = x.
Proof.
  intros Hd Fx. unfold file_single_via_double. destruct (Req_dec x 0) as [->|Hx].
  { rewrite print_0 by lia. rewrite to_double_0. apply to_single_0. }
  apply single_near; auto. set (y := print_digits d x).
  pose proof (print_error d x Hd) as E1. fold y in E1. pose proof (print_size d x Hd) as E2. fold y in E2.
  pose proof (single_size x Fx Hx) as E3.
  assert (E4 : bpow radix2 (-1022) <= Rabs y).
  { apply Rle_trans with (bpow radix2 (-150)); [apply bpow_le; lia|].
    replace (bpow radix2 (-150)) with (/ 2 * bpow radix2 (-149)); [lra|].
    change (-150)%Z with (-1 + -149)%Z. rewrite bpow_plus. reflexivity. }
  pose proof (double_error y E4) as E5.
  assert (T : Rabs (to_double y - x) <= Rabs (to_double y - y) + Rabs (y - x)).
  { replace (to_double y - x) with ((to_double y - y) + (y - x)) by ring. apply Rabs_triang. }
  assert (T2 : Rabs y <= Rabs (y - x) + Rabs x).
  { replace y with ((y - x) + x) at 1 by ring. apply Rabs_triang. }
  pose proof (Rabs_pos x). lra.
Qed.

(** 15 digits: reading and writing again gives the same file *)
Lemma double_stable x : x = 0 \/ bpow radix2 (-1021) <= Rabs x ->
  print_digits 15 (file_double 15 x) = print_digits 15 x.
Proof.
  intros [->|Hx].
  { unfold file_double. rewrite print_0 by lia. rewrite to_double_0. apply print_0. lia. }
  unfold file_double. set (y := print_digits 15 x).
  assert (Fy : generic_format radix10 (FLX_exp 15) y) by (apply generic_format_round; auto with typeclass_instances).
  pose proof (print_size 15 x ltac:(lia)) as E2. fold y in E2.
  assert (E4 : bpow radix2 (-1022) <= Rabs y).
  { replace (bpow radix2 (-1022)) with (/ 2 * bpow radix2 (-1021)); [lra|].
    change (-1022)%Z with (-1 + -1021)%Z. rewrite bpow_plus. reflexivity. }
  pose proof (double_error y E4) as E5. pose proof (bpow_gt_0 radix2 (-1022)) as P.
  unfold print_digits. apply (round_near radix10 (FLX_exp 15)) with (p := 15%Z); auto.
  - lia.
  - intros e. unfold FLX_exp. lia.
  - eapply Rle_lt_trans; [exact E5|]. simpl. lra.
Qed.

Lemma double_file_error x : x = 0 \/ bpow radix2 (-1021) <= Rabs x ->
  Rabs (file_double 15 x - x) <= 6 / 1000000000000000 * Rabs x.
Proof.
  intros [->|Hx].
  { unfold file_double. rewrite print_0 by lia. rewrite to_double_0. rewrite Rminus_0_r, Rabs_R0. lra. }
  unfold file_double. set (y := print_digits 15 x).
  pose proof (print_error 15 x ltac:(lia)) as E1. fold y in E1.
  pose proof (print_size 15 x ltac:(lia)) as E2. fold y in E2.
  assert (E4 : bpow radix2 (-1022) <= Rabs y).
  { replace (bpow radix2 (-1022)) with (/ 2 * bpow radix2 (-1021)); [lra|].
    change (-1022)%Z with (-1 + -1021)%Z. rewrite bpow_plus. reflexivity. }
  pose proof (double_error y E4) as E5.
  assert (T : Rabs (to_double y - x) <= Rabs (to_double y - y) + Rabs (y - x)).
  { replace (to_double y - x) with ((to_double y - y) + (y - x)) by ring. apply Rabs_triang. }
  assert (T2 : Rabs y <= Rabs (y - x) + Rabs x).
  { replace y with ((y - x) + x) at 1 by ring. apply Rabs_triang. }
  pose proof (Rabs_pos x). lra.
Qed.

(** whole numbers below 10^15 are exact *)
Lemma whole_exact n : (Z.abs n < 10 ^ 15)%Z -> file_double 15 (IZR n) = IZR n.
Proof.
  intros Hn. unfold file_double, print_digits, to_double.
  rewrite (round_generic radix10 (FLX_exp 15)).
  - apply round_generic; [auto with typeclass_instances|].
    apply generic_format_FLT. exists (Float radix2 n 0); simpl; [unfold F2R; simpl; ring|lia|lia].
  - auto with typeclass_instances.
  - apply generic_format_FLX. exists (Float radix10 n 0); simpl; [unfold F2R; simpl; ring|lia].
Qed.

(** 1 + 2^-52 is written as 1, with 15 and with 16 digits *)
Definition eps1 : R := 4503599627370497 / 4503599627370496.
Lemma eps1_double : is_double eps1.
Proof.
  apply generic_format_FLT. exists (Float radix2 4503599627370497 (-52)); simpl; [|lia|lia].
  unfold F2R, eps1. cbn [Fnum Fexp]. change (bpow radix2 (-52)) with (/ 4503599627370496). lra.
Qed.
Lemma one_double : is_double 1.
Proof. apply generic_format_FLT. exists (Float radix2 1 0); simpl; [unfold F2R; simpl; ring|lia|lia]. Qed.
Lemma one_digits d : (0 < d)%Z -> generic_format radix10 (FLX_exp d) 1.
Proof.
  intros Hd. apply generic_format_FLX. exists (Float radix10 1 0); simpl; [unfold F2R; simpl; ring|].
  change 1%Z with (10 ^ 0)%Z at 1. apply Z.pow_lt_mono_r; lia.
Qed.
Lemma eps1_lost : file_double 15 eps1 = 1 /\ eps1 <> 1.
Proof.
  split; [|unfold eps1; lra]. unfold file_double.
  replace (print_digits 15 eps1) with 1; [apply round_generic; [auto with typeclass_instances|apply one_double]|].
  symmetry. unfold print_digits. apply (round_near radix10 (FLX_exp 15)) with (p := 15%Z); auto.
  - lia.
  - intros e. unfold FLX_exp. lia.
  - apply one_digits. lia.
  - unfold eps1. rewrite Rabs_R1. simpl. rewrite Rabs_pos_eq; lra.
Qed.

(** 2^54 with 16 digits *)
Lemma eps2_lost : is_double 18014398509481984 /\ file_double 16 18014398509481984 = 18014398509481980.
Proof.
  split.
  { apply generic_format_FLT. exists (Float radix2 1 54); simpl; [unfold F2R; cbn [Fnum Fexp]; change (bpow radix2 54) with 18014398509481984; lra|lia|lia]. }
  unfold file_double. replace (print_digits 16 18014398509481984) with 18014398509481980.
  - apply round_generic; [auto with typeclass_instances|].
    apply generic_format_FLT. exists (Float radix2 4503599627370495 2); simpl; [unfold F2R; cbn [Fnum Fexp]; change (bpow radix2 2) with 4; lra|lia|lia].
  - symmetry. unfold print_digits, round, scaled_mantissa, cexp.
    rewrite (mag_unique_pos radix10 18014398509481984 17) by (simpl; lra).
    change (FLX_exp 16 17) with 1%Z. rewrite (Znearest_imp _ _ 1801439850948198).
    + unfold F2R. simpl. ring.
    + simpl. rewrite Rabs_pos_eq; lra.
Qed.
