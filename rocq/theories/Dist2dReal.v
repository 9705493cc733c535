(** Distributed 2d matrices over the reals: Gershgorin bounds, normalize,
    Frobenius norm, sparsity. *)
From Coq Require Import Reals Lra.
From Verif Require Import Base BaseFacts Spec SpecFacts RealSpec EllpackModel EllpackSpec EllpackFacts EllpackOps EllpackArith EllpackExact EllpackRest EllpackMul2 EllpackNorm EllpackHist
  CsrModel CsrSpec CsrFacts CsrOps CsrMore CsrTop CsrHash CsrRoom GershModel GershFacts CsrGershModel CsrGersh
  GemmModel DenseModel DenseSpec DenseFacts DenseOps DenseRealModel DenseReal FormatModel FormatSpec FormatFacts FormatConv FormatHistModel FormatHistSpec FormatHist
  MpiModel MpiSpec MpiFacts MpiRun Dist2dModel Dist2dSpec Dist2dLocal Dist2dFacts Dist2dCannon Dist2dOps Dist2dMore Dist2dRestModel Dist2dRest.
Local Open Scope R_scope.

Lemma bml_accumulate_offdiag_ok (A : bmat Rscalar) (incl : bool) : bwf A ->
  bml_accumulate_offdiag A incl =
  Ok (map (fun i => if incl then Rsum (bml_get_N A) (fun j => Rabs (bmx A i j)) else radius (bml_get_N A) (bmx A) i) (seq 0 (bml_get_N A))).
Proof.
  intros W. destruct A as [A|A|A]; cbn [bml_accumulate_offdiag bml_get_N bmx].
  - apply dense_accumulate_offdiag_ok, W.
  - apply ell_accumulate_offdiag_ok, W.
  - apply csr_accumulate_offdiag_ok, W.
Qed.

Lemma bml_nnz_above_ok (keep : Rscalar -> bool) (A : bmat Rscalar) : bwf A -> keep 0 = false ->
  bml_nnz_above keep A = Ok (nsum (bml_get_N A) (fun i => count (bml_get_N A) (fun j => keep (bmx A i j)))).
Proof.
  intros W K. destruct A as [A|A|A]; cbn [bml_nnz_above bml_get_N bmx].
  - apply dense_nnz_above_ok, W.
  - apply nnz_above_ok; auto.
  - apply csr_nnz_above_ok; auto.
Qed.

Lemma nsum_ext n f g : (forall i, (i < n)%nat -> f i = g i) -> nsum n f = nsum n g.
Proof. induction n as [|n IH]; intros H; cbn [nsum]; [reflexivity|]. rewrite IH, H; auto with arith. Qed.

(** sparsity of one matrix in any of the three formats *)
Lemma bml_get_sparsity_ok (keep : R -> bool) (A : bmat Rscalar) : bwf A -> keep 0 = false ->
  bml_get_sparsity keep A = Ok (1 - INR (nsum (bml_get_N A) (fun i => count (bml_get_N A) (fun j => keep (bmx A i j)))) / INR (bml_get_N A * bml_get_N A)).
Proof. intros W K. unfold bml_get_sparsity. rewrite bml_nnz_above_ok by auto. reflexivity. Qed.

(** ** Reductions *)
Section Minmax.
  Variables (P : nat) (order : list nat) (v : list R).
  Hypothesis HP : (0 < P)%nat.
  Hypothesis HO : Permutation order (seq 0 P).
  Local Notation g := (fun r => nth r v 0).

  Lemma fold_min l x : let y := fold_left (fun s r => Rmin s (g r)) l x in
    y <= x /\ (forall r, In r l -> y <= g r) /\ (y = x \/ exists r, In r l /\ y = g r).
  Proof.
    revert x. induction l as [|a l IH]; intros x.
    - cbn. split; [lra|]. split; [intros r []|auto].
    - cbn [fold_left]. destruct (IH (Rmin x (g a))) as (H1 & H2 & H3). cbv zeta. set (y := fold_left _ l _) in *.
      assert (M1 := Rmin_l x (g a)). assert (M2 := Rmin_r x (g a)). split; [lra|]. split.
      + intros r [<-|Hr]; [lra|auto].
      + destruct H3 as [H3|(r & Hr & H3)]; [|right; exists r; split; [right|]; auto].
        unfold Rmin in H3. destruct (Rle_dec x (g a)); [auto|right; exists a; split; [left|]; auto].
  Qed.
  Lemma fold_max l x : let y := fold_left (fun s r => Rmax s (g r)) l x in
    x <= y /\ (forall r, In r l -> g r <= y) /\ (y = x \/ exists r, In r l /\ y = g r).
  Proof.
    revert x. induction l as [|a l IH]; intros x.
    - cbn. split; [lra|]. split; [intros r []|auto].
    - cbn [fold_left]. destruct (IH (Rmax x (g a))) as (H1 & H2 & H3). cbv zeta. set (y := fold_left _ l _) in *.
      assert (M1 := Rmax_l x (g a)). assert (M2 := Rmax_r x (g a)). split; [lra|]. split.
      + intros r [<-|Hr]; [lra|auto].
      + destruct H3 as [H3|(r & Hr & H3)]; [|right; exists r; split; [right|]; auto].
        unfold Rmax in H3. destruct (Rle_dec x (g a)); [right; exists a; split; [left|]; auto|auto].
  Qed.

  Lemma order_in r : In r order <-> (r < P)%nat.
  Proof. rewrite HO, in_seq. lia. Qed.

  Lemma allreduce_min : (forall r, (r < P)%nat -> allreduce_with Rmin order v <= g r) /\ exists r, (r < P)%nat /\ allreduce_with Rmin order v = g r.
  Proof.
    assert (IN := order_in). assert (PL := Permutation_length HO). rewrite seq_length in PL. unfold allreduce_with. destruct order as [|a l]; [cbn in PL; lia|].
    destruct (fold_min l (g a)) as (H1 & H2 & H3). cbv zeta in *. split.
      + intros r Hr. apply IN in Hr as [<-|Hr]; [exact H1|auto].
      + destruct H3 as [H3|(r & Hr & H3)]; [exists a|exists r]; (split; [apply IN; cbn; auto|exact H3]).
  Qed.
  Lemma allreduce_max : (forall r, (r < P)%nat -> g r <= allreduce_with Rmax order v) /\ exists r, (r < P)%nat /\ allreduce_with Rmax order v = g r.
  Proof.
    assert (IN := order_in). assert (PL := Permutation_length HO). rewrite seq_length in PL. unfold allreduce_with. destruct order as [|a l]; [cbn in PL; lia|].
    destruct (fold_max l (g a)) as (H1 & H2 & H3). cbv zeta in *. split.
      + intros r Hr. apply IN in Hr as [<-|Hr]; [exact H1|auto].
      + destruct H3 as [H3|(r & Hr & H3)]; [exists a|exists r]; (split; [apply IN; cbn; auto|exact H3]).
  Qed.
End Minmax.

Lemma Rsum_blocks (f : nat -> R) p n : Rsum (p * n) f = Rsum p (fun l => Rsum n (fun i => f (l * n + i)%nat)).
Proof.
  rewrite <- bigsum_Rsum. rewrite (bigsum_blocks (F:=Rscalar) f p n). rewrite bigsum_Rsum. apply Rsum_ext. intros l Hl. apply bigsum_Rsum.
Qed.

(** the radius of a row is the sum over the blocks of that block row *)
Lemma radius_blocks (X : mat Rscalar) p n I i : (I < p)%nat -> (i < n)%nat ->
  radius (p * n) X (I * n + i) = Rsum p (fun J => if Nat.eqb I J then radius n (sub n I J X) i else Rsum n (fun j => Rabs (sub n I J X i j))).
Proof.
  intros HI Hi. unfold radius. rewrite Rsum_blocks. apply Rsum_ext. intros J HJ. destruct (Nat.eqb_spec I J) as [<-|Hne].
  - apply Rsum_ext. intros j Hj. unfold sub. destruct (Nat.eqb_spec (I * n + i) (I * n + j)), (Nat.eqb_spec i j); try lia; reflexivity.
  - apply Rsum_ext. intros j Hj. unfold sub. destruct (Nat.eqb_spec (I * n + i) (J * n + j)) as [Q|]; [|reflexivity].
    exfalso. apply Hne. assert (QI : ((I * n + i) / n = I)%nat) by (rewrite Nat.div_add_l, Nat.div_small by lia; lia).
    assert (QJ : ((J * n + j) / n = J)%nat) by (rewrite Nat.div_add_l, Nat.div_small by lia; lia). congruence.
Qed.

Lemma radius_meq n (X Y : mat Rscalar) i : meq n X Y -> (i < n)%nat -> radius n X i = radius n Y i.
Proof. intros H Hi. unfold radius. apply Rsum_ext. intros j Hj. rewrite (H i j Hi Hj). reflexivity. Qed.

Lemma fold_Rsum P order (g : nat -> R) : Permutation order (seq 0 P) -> fold_left (fun s J => s + g J) order 0 = Rsum P g.
Proof.
  intros HO. rewrite <- bigsum_Rsum, <- (lsum_rows (F:=Rscalar) g P order HO).
  assert (G : forall l a, fold_left (fun s J => s + g J) l a = a + lsum (F:=Rscalar) (map g l)).
  { induction l as [|r l IH]; intros a; cbn [fold_left map]; [cbn; rring|]. rewrite IH. unfold lsum. cbn [fold_right]. change (kadd (s:=Rscalar)) with Rplus. rring. }
  rewrite G. apply Rplus_0_l.
Qed.

Section DistReal.
  Variables (t : fmt) (A : dist Rscalar).
  Hypothesis OA : dist_ok t A.
  Hypothesis RA : dist_roomy A.
  Local Notation n := (tn A).
  Local Notation p := (tp A).
  Local Notation m := (tM A / tp A)%nat.
  Local Notation N := (tN A).

  Lemma dist_gershgorin_post rowo omin omax :
    (forall r, (r < tasks A)%nat -> Permutation (rowo r) (seq 0 p)) -> Permutation omin (seq 0 (tasks A)) -> Permutation omax (seq 0 (tasks A)) ->
    exists emin emax, dist_gershgorin A rowo omin omax = Ok (emin, emax) /\
      scan_post N (fun i => gmx A i i) (radius N (gmx A)) (emin, emax).
  Proof.
    intros HR Hmin Hmax. pose proof OA as ((Hp & Hn & HN) & _). unfold dist_gershgorin.
    set (X := gmx A). set (rho := fun I J i => if Nat.eqb I J then radius n (sub n I J X) i else Rsum n (fun j => Rabs (sub n I J X i j))).
    destruct (each_ok (tasks A) (fun r => bml_accumulate_offdiag (blk A r) (negb (myprow A r =? mypcol A r)%nat))
      (fun r (l : list R) => l = map (rho (cart_row p r) (cart_col p r)) (seq 0 n))) as (sums & -> & LS & HS).
    { intros r Hr. destruct (here t A OA RA r Hr) as [(W & R & T) MA]. eexists. split; [apply bml_accumulate_offdiag_ok, W|].
      rewrite (proj1 R). apply map_ext_in. intros i Hi. apply in_seq in Hi. unfold rho, myprow, mypcol. destruct (cart_row p r =? cart_col p r)%nat; cbn [negb].
      - apply radius_meq; [exact MA|lia].
      - apply Rsum_ext. intros j Hj. rewrite MA by lia. reflexivity. }
    cbn [bind].
    assert (HSUM : forall r i, (r < tasks A)%nat -> (i < n)%nat ->
      rd (map Some (dist_row_sum A sums (rowo r) r)) i = Ok (Some (radius N X (cart_row p r * n + i)))).
    { intros r i Hr Hi. rewrite (rd_ok _ i None) by (unfold dist_row_sum; rewrite !map_length, seq_length; lia).
      rewrite (nth_indep _ None (Some 0)) by (unfold dist_row_sum; rewrite !map_length, seq_length; lia). rewrite map_nth.
      do 2 f_equal. unfold dist_row_sum. rewrite nth_map_seq by lia.
      assert (HI : (cart_row p r < p)%nat) by (apply row_lt; exact Hr).
      rewrite (fold_Rsum p (rowo r) (fun J => nth i (nth (cart_rank p (myprow A r) J) sums nil) 0)) by (apply HR, Hr).
      rewrite HN, radius_blocks by auto. apply Rsum_ext. intros J HJ.
      unfold myprow. rewrite (HS (cart_rank p (cart_row p r) J) nil) by (apply rank_lt; auto). rewrite rank_row, rank_col by auto.
      rewrite nth_map_seq by lia. reflexivity. }
    destruct (each_ok (tasks A) (fun r =>
      if (myprow A r =? mypcol A r)%nat then dval <- bml_get_diagonal (blk A r) ;;
        gersh_scan (tn A) (map Some (dval : list R)) (map Some (dist_row_sum A sums (rowo r) r))
      else Ok (DBL_MAX, DBL_MIN))
      (fun r (e : R * R) => if (cart_row p r =? cart_col p r)%nat then
         scan_post n (fun i => X (cart_row p r * n + i)%nat (cart_row p r * n + i)%nat) (fun i => radius N X (cart_row p r * n + i)) e
         else e = (DBL_MAX, DBL_MIN))) as (ev & -> & LE & HEv).
    { intros r Hr. unfold myprow, mypcol. destruct (Nat.eqb_spec (cart_row p r) (cart_col p r)) as [Q|Q]; [|eexists; split; reflexivity].
      destruct (here t A OA RA r Hr) as [(W & R & T) MA]. rewrite bml_get_diagonal_ok by exact W. cbn [bind]. rewrite (proj1 R).
      apply wp_ok. apply scan_ok.
      - intros i Hi. rewrite (rd_ok _ i None) by (rewrite !map_length, seq_length; lia).
        rewrite (nth_indep _ None (Some 0)) by (rewrite !map_length, seq_length; lia). rewrite map_nth. do 2 f_equal.
        rewrite nth_map_seq by lia. rewrite MA by lia. unfold sub. rewrite <- Q. reflexivity.
      - intros i Hi. apply HSUM; auto. }
    cbn [bind]. set (emin := allreduce_with Rmin omin _). set (emax := allreduce_with Rmax omax _). exists emin, emax. split; [reflexivity|].
    assert (TP : (0 < tasks A)%nat) by (unfold tasks; nia).
    assert (NF : forall r, (r < tasks A)%nat -> nth r (map fst ev) 0 = fst (nth r ev (0, 0))) by (intros r Hr; apply (map_nth fst ev (0, 0) r)).
    assert (NS : forall r, (r < tasks A)%nat -> nth r (map snd ev) 0 = snd (nth r ev (0, 0))) by (intros r Hr; apply (map_nth snd ev (0, 0) r)).
    destruct (allreduce_min (tasks A) omin (map fst ev) TP Hmin) as (A1 & r1 & R1 & A2).
    destruct (allreduce_max (tasks A) omax (map snd ev) TP Hmax) as (B1 & r2 & R2 & B2). fold emin in A1, A2. fold emax in B1, B2. cbv beta in *.
    (* the bounds of one task *)
    assert (ONE : forall r, (r < tasks A)%nat -> let e := nth r ev (0, 0) in fst e <= DBL_MAX /\ DBL_MIN <= snd e /\
      (fst e = DBL_MAX \/ exists i, (i < N)%nat /\ fst e = X i i - radius N X i) /\
      (snd e = DBL_MIN \/ exists i, (i < N)%nat /\ snd e = X i i + radius N X i)).
    { intros r Hr e. assert (H := HEv r (0, 0) Hr). fold e in H. destruct (cart_row p r =? cart_col p r)%nat.
      - destruct H as (H1 & H2 & _ & _ & H5 & H6). assert (HI : (cart_row p r < p)%nat) by (apply row_lt; exact Hr). split; [exact H1|]. split; [exact H2|]. split.
        + destruct H5 as [H5|(i & Hi & H5)]; [auto|right]. exists (cart_row p r * n + i)%nat. split; [rewrite HN; nia|exact H5].
        + destruct H6 as [H6|(i & Hi & H6)]; [auto|right]. exists (cart_row p r * n + i)%nat. split; [rewrite HN; nia|exact H6].
      - rewrite H. cbn [fst snd]. split; [lra|]. split; [lra|]. auto. }
    assert (ROW : forall i, (i < N)%nat -> exists r, (r < tasks A)%nat /\ fst (nth r ev (0, 0)) <= X i i - radius N X i /\ X i i + radius N X i <= snd (nth r ev (0, 0))).
    { intros i Hi. assert (HI : (i / n < p)%nat) by (apply Nat.div_lt_upper_bound; lia). exists (cart_rank p (i / n) (i / n)).
      assert (Hr : (cart_rank p (i / n) (i / n) < tasks A)%nat) by (unfold tasks; apply rank_lt; auto). split; [exact Hr|].
      assert (H := HEv _ (0, 0) Hr). rewrite rank_row, rank_col, Nat.eqb_refl in H by auto. destruct H as (_ & _ & H3 & H4 & _).
      assert (Hm : (i mod n < n)%nat) by (apply Nat.mod_upper_bound; lia). assert (Q : (i / n * n + i mod n = i)%nat) by (rewrite (Nat.div_mod i n) at 3; lia).
      specialize (H3 _ Hm). specialize (H4 _ Hm). cbv beta in H3, H4. rewrite Q in H3, H4. split; [exact H3|exact H4]. }
    unfold scan_post. cbn [fst snd]. fold X.
    split; [rewrite A2, NF by auto; apply (ONE r1 R1)|]. split; [rewrite B2, NS by auto; apply (ONE r2 R2)|].
    split. { intros i Hi. destruct (ROW i Hi) as (r & Hr & H1 & _). specialize (A1 r Hr). rewrite NF in A1 by auto. lra. }
    split. { intros i Hi. destruct (ROW i Hi) as (r & Hr & _ & H2). specialize (B1 r Hr). rewrite NS in B1 by auto. lra. }
    rewrite A2, B2, NF, NS by auto. split; [apply (ONE r1 R1)|apply (ONE r2 R2)].
  Qed.

  Lemma dist_gershgorin_bounds rowo omin omax :
    (forall r, (r < tasks A)%nat -> Permutation (rowo r) (seq 0 p)) -> Permutation omin (seq 0 (tasks A)) -> Permutation omax (seq 0 (tasks A)) ->
    exists emin emax, dist_gershgorin A rowo omin omax = Ok (emin, emax) /\
      forall lambda, eigenvalue N (gmx A) lambda -> emin <= lambda <= emax.
  Proof.
    intros HR Hmin Hmax. destruct (dist_gershgorin_post rowo omin omax HR Hmin Hmax) as (emin & emax & E & H). exists emin, emax. split; [exact E|].
    intros lambda. apply (scan_bounds N (gmx A) emin emax lambda H).
  Qed.
  Lemma dist_gershgorin_exact rowo omin omax :
    (forall r, (r < tasks A)%nat -> Permutation (rowo r) (seq 0 p)) -> Permutation omin (seq 0 (tasks A)) -> Permutation omax (seq 0 (tasks A)) ->
    (exists i, (i < N)%nat /\ DBL_MIN <= gmx A i i + radius N (gmx A) i) -> (exists i, (i < N)%nat /\ gmx A i i - radius N (gmx A) i <= DBL_MAX) ->
    exists emin emax, dist_gershgorin A rowo omin omax = Ok (emin, emax) /\
      (forall i, (i < N)%nat -> emin <= gmx A i i - radius N (gmx A) i) /\ (exists i, (i < N)%nat /\ emin = gmx A i i - radius N (gmx A) i) /\
      (forall i, (i < N)%nat -> gmx A i i + radius N (gmx A) i <= emax) /\ (exists i, (i < N)%nat /\ emax = gmx A i i + radius N (gmx A) i).
  Proof.
    intros HR Hmin Hmax H1 H2. destruct (dist_gershgorin_post rowo omin omax HR Hmin Hmax) as (emin & emax & E & H). exists emin, emax. split; [exact E|].
    apply (scan_exact N (fun i => gmx A i i) (radius N (gmx A)) emin emax H H1 H2).
  Qed.

  Lemma dist_normalize_ok mn mx E : mx - mn <> 0 -> (forall r k, (r < tasks A)%nat -> good_schedules n (E r k)) ->
    exists B, dist_normalize A mn mx E = Ok B /\
      becomes t A B (fun i j => (((if Nat.eqb i j then mx else 0) - gmx A i j) / (mx - mn))).
  Proof.
    intros Hd HE. pose proof OA as ((Hp & Hn & HN) & _). unfold dist_normalize.
    destruct (local_ok t A (fun r b =>
      b <- bml_scale_inplace (-1 / (mx - mn) : Rscalar) b (E r 0%nat) ;;
      if (myprow A r =? mypcol A r)%nat then bml_add_identity (gtR 0 : Rscalar -> bool) (mx / (mx - mn) : Rscalar) b (E r 1%nat) else Ok b)
      (fun i j => (((if Nat.eqb i j then mx else 0) - gmx A i j) / (mx - mn))) OA) as (B & EB & BB & _); [|exists B; split; [exact EB|exact BB]].
    intros r Hr. destruct (here t A OA RA r Hr) as [SA MA].
    destruct (sh_scale_inplace t n m (-1 / (mx - mn) : Rscalar) (blk A r) (E r 0%nat) (HE r 0%nat Hr) SA) as (C & -> & SC & MC). cbn [bind].
    unfold myprow, mypcol. destruct (Nat.eqb_spec (cart_row p r) (cart_col p r)) as [Q|Q].
    - destruct (sh_add_identity (F:=Rscalar) t n m (gtR 0) (mx / (mx - mn) : Rscalar) C (E r 1%nat) Hn (HE r 1%nat Hr) SC) as (C' & -> & SC' & MC').
      exists C'. split; [reflexivity|]. split; [exact SC'|]. intros i j Hi Hj. rewrite MC' by auto.
      assert (CUT : forall Y : mat Rscalar, tcut (F:=Rscalar) (gtR 0) C Y i j = Y i j) by (intros Y; unfold tcut; destruct (sparse C); [apply cut_exact, gtR0_nonzero|reflexivity]).
      rewrite CUT. unfold madd, mscale, mid. change (kadd (s:=Rscalar)) with Rplus. rewrite MC by auto. unfold mscale. rewrite MA by auto. unfold sub. rewrite Q.
      destruct (Nat.eqb_spec i j) as [->|Hij].
      + rewrite Nat.eqb_refl. change (kmul (s:=Rscalar)) with Rmult; change (k1 (s:=Rscalar)) with 1; change (k0 (s:=Rscalar)) with 0. change (@eq (K Rscalar)) with (@eq R); field. exact Hd.
      + destruct (Nat.eqb_spec (cart_col p r * n + i) (cart_col p r * n + j)); [lia|]. change (kmul (s:=Rscalar)) with Rmult; change (k1 (s:=Rscalar)) with 1; change (k0 (s:=Rscalar)) with 0. change (@eq (K Rscalar)) with (@eq R); field. exact Hd.
    - exists C. split; [reflexivity|]. split; [exact SC|]. intros i j Hi Hj. rewrite MC by auto. unfold mscale. rewrite MA by auto. unfold sub.
      destruct (Nat.eqb_spec (cart_row p r * n + i) (cart_col p r * n + j)) as [Z|_].
      + exfalso. apply Q. assert (QI : ((cart_row p r * n + i) / n = cart_row p r)%nat) by (rewrite Nat.div_add_l, Nat.div_small by lia; lia).
        assert (QJ : ((cart_col p r * n + j) / n = cart_col p r)%nat) by (rewrite Nat.div_add_l, Nat.div_small by lia; lia). congruence.
      + cbn [kmul Rscalar]. change (@eq (K Rscalar)) with (@eq R); field. exact Hd.
  Qed.

  Lemma dist_normalize_spec rowo omin omax emin emax E :
    (forall r, (r < tasks A)%nat -> Permutation (rowo r) (seq 0 p)) -> Permutation omin (seq 0 (tasks A)) -> Permutation omax (seq 0 (tasks A)) ->
    (forall r k, (r < tasks A)%nat -> good_schedules n (E r k)) ->
    dist_gershgorin A rowo omin omax = Ok (emin, emax) -> emin < emax ->
    exists B, dist_normalize A emin emax E = Ok B /\
      becomes t A B (fun i j => (((if Nat.eqb i j then emax else 0) - gmx A i j) / (emax - emin))) /\
      forall mu, eigenvalue N (gmx B) mu -> 0 <= mu <= 1.
  Proof.
    intros HR Hmin Hmax HE HG Hlt. destruct (dist_normalize_ok emin emax E) as (B & EB & BB); [lra|exact HE|]. exists B. split; [exact EB|]. split; [exact BB|].
    intros mu. apply (normalize_spectrum (gmx A) (gmx B) N emin emax mu Hlt).
    - intros lambda Hl. destruct (dist_gershgorin_bounds rowo omin omax HR Hmin Hmax) as (a & b & E' & H). rewrite HG in E'. injection E' as <- <-. auto.
    - intros i j Hi Hj. destruct BB as (_ & _ & _ & M). apply (M i j Hi Hj).
  Qed.

  Lemma dist_fnorm_ok E order : (forall r, (r < tasks A)%nat -> good_schedules n (E r)) -> Permutation order (seq 0 (tasks A)) ->
    dist_fnorm A E order = Ok (sqrt (msum N (mhad (gmx A) (gmx A)))).
  Proof.
    intros HE HO. unfold dist_fnorm. rewrite (dist_sum_ok t A OA order HO _ (mhad (gmx A) (gmx A))); [reflexivity|].
    intros r Hr. destruct (here t A OA RA r Hr) as [(W & R & T) MA]. unfold bml_fnorm.
    rewrite bml_sum_squares_ok; auto; [|apply (good_env_of n m); auto]. cbn [bind]. rewrite (proj1 R).
    assert (Q : msum n (mhad (bmx (blk A r)) (bmx (blk A r))) = msum n (sub n (cart_row p r) (cart_col p r) (mhad (gmx A) (gmx A)))).
    { apply msum_meq. intros i j Hi Hj. unfold mhad. rewrite MA by auto. reflexivity. }
    rewrite Q. f_equal. apply sqrt_sqrt. unfold msum. rewrite bigsum_Rsum. apply Rsum_nonneg. intros i Hi. rewrite bigsum_Rsum. apply Rsum_nonneg.
    intros j Hj. unfold sub, mhad. cbn [kmul Rscalar]. apply Rle_0_sqr.
  Qed.

  (** the fraction of elements that the threshold does not keep *)
  Lemma dist_get_sparsity_ok (keep : R -> bool) order : keep 0 = false -> Permutation order (seq 0 (tasks A)) ->
    dist_get_sparsity keep A order = Ok (1 - INR (nsum N (fun i => count N (fun j => keep (gmx A i j)))) / INR (N * N)).
  Proof.
    intros HK HO. pose proof OA as ((Hp & Hn & HN) & _). unfold dist_get_sparsity.
    assert (NP : (0 < N)%nat) by nia.
    set (Y := (fun i j => if keep (gmx A i j) then 0 else 1) : mat Rscalar).
    assert (CNT : forall k (f : nat -> bool), INR k - INR (count k f) = Rsum k (fun j => if f j then 0 else 1)).
    { intros k f. induction k as [|k IH]; [cbn; lra|]. cbn [Rsum]. rewrite <- IH. unfold count. rewrite seq_S, filter_app, app_length, Nat.add_0_l. cbn [filter]. rewrite S_INR.
      destruct (f k); cbn [length]; rewrite plus_INR; cbn [INR]; lra. }
    assert (ALL : forall k (Z : nat -> nat -> bool), INR (k * k) - INR (nsum k (fun i => count k (Z i))) = Rsum k (fun i => Rsum k (fun j => if Z i j then 0 else 1))).
    { intros k Z. assert (G : forall q, INR (q * k) - INR (nsum q (fun i => count k (Z i))) = Rsum q (fun i => Rsum k (fun j => if Z i j then 0 else 1))).
      { induction q as [|q IH]; [cbn; lra|]. cbn [Rsum nsum]. rewrite <- IH, <- CNT. rewrite Nat.mul_succ_l, !plus_INR. lra. }
      apply G. }
    rewrite (dist_sum_ok t A OA order HO _ Y).
    - cbn [bind]. f_equal. unfold msum. rewrite bigsum_Rsum.
      rewrite (Rsum_ext N _ (fun i => Rsum N (fun j => if keep (gmx A i j) then 0 else 1))) by (intros i Hi; rewrite bigsum_Rsum; reflexivity).
      rewrite <- (ALL N (fun i j => keep (gmx A i j))). assert (INR (N * N) <> 0) by (apply not_0_INR; nia). field. auto.
    - intros r Hr. destruct (here t A OA RA r Hr) as [(W & R & T) MA]. unfold bml_get_sparsity. rewrite bml_nnz_above_ok by auto. cbn [bind]. rewrite (proj1 R).
      f_equal. assert (NZ : INR (n * n) <> 0) by (apply not_0_INR; nia).
      assert (Q : nsum n (fun i => count n (fun j => keep (bmx (blk A r) i j))) = nsum n (fun i => count n (fun j => keep (sub n (cart_row p r) (cart_col p r) (gmx A) i j)))).
      { apply nsum_ext. intros i Hi. unfold count. f_equal. apply filter_ext_in. intros j Hj. apply in_seq in Hj. rewrite MA by lia. reflexivity. }
      rewrite Q. unfold msum. rewrite bigsum_Rsum.
      rewrite (Rsum_ext n _ (fun i => Rsum n (fun j => if keep (sub n (cart_row p r) (cart_col p r) (gmx A) i j) then 0 else 1))) by (intros i Hi; rewrite bigsum_Rsum; reflexivity).
      rewrite <- (ALL n). field. exact NZ.
  Qed.
End DistReal.
