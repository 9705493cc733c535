(** Distributed 2d matrices: scale into another matrix, conversion, add_norm,
    Gershgorin bounds, normalize, Frobenius norm, sparsity. *)
From Coq Require Import Reals Lra.
From Verif Require Import Base BaseFacts Spec SpecFacts RealSpec EllpackModel EllpackSpec EllpackFacts EllpackOps EllpackArith EllpackExact EllpackRest EllpackMul2 EllpackNorm
  CsrModel CsrSpec CsrFacts CsrOps CsrMore CsrTop CsrHash CsrRoom GershModel GershFacts CsrGershModel CsrGersh
  GemmModel DenseModel DenseSpec DenseFacts DenseOps DenseRealModel DenseReal FormatModel FormatSpec FormatFacts FormatConv FormatHistModel FormatHistSpec FormatHist
  MpiModel MpiSpec MpiFacts MpiRun Dist2dModel Dist2dSpec Dist2dLocal Dist2dFacts Dist2dCannon Dist2dOps Dist2dMore Dist2dRestModel.

Section Rest.
  Context {F : scalar}.
  Local Notation bmat := (bmat F).
  Local Notation env := (env F).
  Local Notation dist := (dist F).
  Local Open Scope K_scope.

  Definition later (e : env) : env := mkEnv (e_nth e) (fun k => e_rows e (S k)) (fun k => e_cells e (S k)) (e_tri e) (e_slots e) (e_gv e) (e_gi e).
  Lemma later_good n e : good_schedules n e -> good_schedules n (later e).
  Proof. intros (H1 & H2 & H3 & H4). split; [intros k; apply H1|]. split; [intros k; apply H2|]. split; auto. Qed.

  Lemma bml_scale_eq a (A B : bmat) e : bml_scale a A B e = (C <- bml_copy A B e ;; bml_scale_inplace a C (later e)).
  Proof.
    destruct A as [A|A|A], B as [B|B|B]; try reflexivity; unfold bml_scale, bml_copy, dense_scale, ell_scale, csr_scale.
    - destruct (dense_copy A B); reflexivity.
    - destruct (ell_copy A B); reflexivity.
    - destruct (csr_copy A B (e_rows e 0)); reflexivity.
  Qed.

  Lemma sh_scale t n m a (A B : bmat) X e : (0 < n)%nat -> good_schedules n e -> holds t n m X A -> shaped t n m B ->
    exists C, bml_scale a A B e = Ok C /\ holds t n m (mscale a X) C.
  Proof.
    intros Hn HE HA HB. rewrite bml_scale_eq. destruct (sh_copy t n m A B X e Hn HE HA HB) as (C & -> & SC & MC). cbn [bind].
    destruct (sh_scale_inplace t n m a C (later e) (later_good n e HE) SC) as (C' & -> & SC' & MC').
    exists C'. split; [reflexivity|]. split; [exact SC'|]. eapply meq_trans; [exact MC'|]. apply (meq_mscale n a _ _ MC).
  Qed.

  (** bml_add_norm of two matrices: the norm of dense matrices is the sum of
      squares of B, the one of ellpack matrices that of A - B *)
  Definition norm_of (t : fmt) (X Y : mat F) : mat F :=
    match t with
    | FDense => mhad Y Y
    | _ => fun i j => (X i j - Y i j) * (X i j - Y i j)
    end.
  Lemma sh_add_norm t n m keep alpha beta (A B : bmat) e : t <> FCsr -> good_schedules n e -> shaped t n m A -> shaped t n m B ->
    exists C, bml_add_norm keep alpha beta A B e = Ok (C, msum n (norm_of t (bmx A) (bmx B))) /\ shaped t n m C /\
      meq n (bmx C) (tcut keep A (madd (mscale alpha (bmx A)) (mscale beta (bmx B)))).
  Proof.
    intros Ht (E1 & E2 & _) (W & R & T) (W' & R' & T').
    destruct A as [A|A|A], B as [B|B|B]; cbn [bml_get_type] in T, T'; try congruence; subst t; cbn [bml_add_norm bmx norm_of tcut sparse bwf] in *.
    - destruct R as (R1 & R2 & _), R' as (R1' & _). cbn [bml_get_N] in *. destruct (dense_add_norm_ok alpha beta A B (e_nth e) (e_cells e 0)) as (C & -> & WC & NC & MC); auto; try congruence.
      { rewrite R1. apply E2. }
      cbn [bind]. rewrite R1 in *. exists (BDense C). split; [reflexivity|]. split; [|exact MC]. split; [exact WC|]. split; [|reflexivity]. split; [exact NC|]. split; [exact R2|exact I].
    - destruct R as (R1 & R2 & R3), R' as (R1' & _). cbn [bml_get_N] in *. destruct (add_norm_spec keep alpha beta A B (e_nth e) (e_rows e 0)) as (C & -> & WC & [NC DC] & MC); auto; try congruence.
      { rewrite R1. apply E1. }
      { intros i Hi. unfold count. eapply Nat.le_trans; [apply filter_length_le|]. rewrite seq_length. lia. }
      cbn [bind]. rewrite R1 in *. exists (BEll C). split; [reflexivity|]. split; [|exact MC]. split; [exact WC|]. split; [|reflexivity]. split; [cbn; lia|]. split; [exact R2|congruence].
  Qed.

  Section One.
    Variables (t : fmt) (A : dist).
    Hypothesis OA : dist_ok t A.
    Hypothesis RA : dist_roomy A.
    Local Notation n := (tn A).
    Local Notation p := (tp A).
    Local Notation m := (tM A / tp A)%nat.

    Lemma room_pos : tM A <> 0%nat.
    Proof.
      destruct OA as ((Hp & Hn & HN) & _). intros Z. assert (X : (0 < tasks A)%nat) by (unfold tasks; nia).
      destruct (RA 0%nat X) as (_ & L & _). rewrite Z, Nat.div_0_l in L; lia.
    Qed.

    Lemma dist_scale_ok a (B : dist) E : dist_ok t B -> dist_roomy B -> same_grid B A -> (forall r, (r < tasks A)%nat -> good_schedules n (E r)) ->
      exists C, dist_scale a A B E = Ok C /\ becomes t B C (mscale a (gmx A)) /\ tprec C = tprec B.
    Proof.
      intros OB RB (G1 & G2 & G3) HE. unfold dist_scale. apply local_ok; [exact OB|].
      assert (TB : tn B = n) by (unfold tn; congruence). intros r Hr. assert (Hr' : (r < tasks A)%nat) by (unfold tasks in *; congruence).
      destruct (dist_parts t B OB RB r Hr) as [SB _]. rewrite TB, G1, G3 in *.
      destruct (sh_scale t n m a (blk A r) (blk B r) (sub n (cart_row p r) (cart_col p r) (gmx A)) (E r)) with (2 := HE r Hr') (3 := here t A OA RA r Hr') (4 := SB) as (C & EC & HC); [apply OA|].
      exists C. split; [exact EC|]. exact HC.
    Qed.

    Lemma table_ok_n r : (r < tasks A)%nat -> t = FCsr -> (n <= table_max)%nat.
    Proof.
      intros Hr ->. destruct (here FCsr A OA RA r Hr) as [(_ & R & T) _]. destruct (blk A r); try discriminate.
      destruct R as (_ & _ & _ & R & _). exact R.
    Qed.

    Lemma noinit_sh r (b : bmat) e : (r < tasks A)%nat -> shaped t n m b -> shaped t n m (bml_noinit_matrix (F := F) t n m e).
    Proof.
      intros Hr (W & R & T). assert (L := proj1 (proj2 R)). assert (H := table_ok_n r Hr). destruct t; cbn [bml_noinit_matrix].
      - split; [apply dense_noinit_wf|]. split; [|reflexivity]. repeat split; auto.
      - split; [apply wf_noinit|]. split; [|reflexivity]. repeat split; auto.
      - apply (noinit_shaped FCsr n m e); auto.
    Qed.

    Lemma dist_scale_new_ok a E : (forall r k, (r < tasks A)%nat -> good_schedules n (E r k)) ->
      exists C, dist_scale_new a A E = Ok C /\ becomes t A C (mscale a (gmx A)) /\ tprec C = true.
    Proof.
      intros HE. pose proof OA as ((Hp & Hn & HN) & _). unfold dist_scale_new. assert (HM := room_pos).
      destruct (Nat.eqb_spec (tM A) 0) as [|_]; [contradiction|].
      destruct (new_ok t A OA (fun r => B <- dist_noinit_block (bml_get_type (blk A r)) p (tN A) (tM A) (E r 0%nat) ;; bml_scale a (blk A r) B (E r 1%nat))
        (mscale a (gmx A))) as (l & -> & B).
      - intros r Hr. pose proof (here t A OA RA r Hr) as HH. destruct HH as [SA MA].
        unfold dist_noinit_block, dist_setup. destruct (Nat.eqb_spec (tM A) 0) as [|_]; [contradiction|].
        destruct (Nat.eqb_spec (tN A) 0) as [|_]; [nia|]. cbn [orb]. fold n. destruct (Nat.eqb_spec (n * p) (tN A)) as [_|]; [|nia].
        cbn [bind]. rewrite (proj2 (proj2 SA)).
        destruct (sh_scale t n m a (blk A r) (bml_noinit_matrix t n m (E r 0%nat)) (sub n (cart_row p r) (cart_col p r) (gmx A)) (E r 1%nat)) as (C & EC & HC); auto.
        + split; auto.
        + apply (noinit_sh r (blk A r)); auto.
        + exists C. split; [exact EC|exact HC].
      - eexists. split; [reflexivity|]. auto.
    Qed.

    Lemma dist_add_norm_ok keep alpha beta (B : dist) E order : t <> FCsr -> dist_ok t B -> dist_roomy B -> same_grid A B ->
      (forall r, (r < tasks A)%nat -> good_schedules n (E r)) -> Permutation order (seq 0 (tasks A)) ->
      exists C, dist_add_norm keep alpha beta A B E order = Ok (C, msum (tN A) (norm_of t (gmx A) (gmx B))) /\
        becomes t A C (fcut t keep (madd (mscale alpha (gmx A)) (mscale beta (gmx B)))).
    Proof.
      intros Ht OB RB GB HE HO. pose proof OA as ((Hp & Hn & HN) & _). unfold dist_add_norm.
      set (Y := fcut t keep (madd (mscale alpha (gmx A)) (mscale beta (gmx B)))).
      destruct (each_ok (tasks A) (fun r => bml_add_norm keep alpha beta (blk A r) (blk B r) (E r))
        (fun r c => part_of t p n m Y r (fst c) /\ snd c = msum n (sub n (cart_row p r) (cart_col p r) (norm_of t (gmx A) (gmx B))))) as (l & -> & LL & HQ).
      - intros r Hr. destruct (here t A OA RA r Hr) as [SA MA]. destruct (there t A B OB RB GB r Hr) as [SB MB].
        destruct (sh_add_norm t n m keep alpha beta (blk A r) (blk B r) (E r) Ht (HE r Hr) SA SB) as (C & -> & SC & MC).
        eexists. split; [reflexivity|]. cbn [fst snd]. split.
        + split; [exact SC|]. intros i j Hi Hj. rewrite MC by auto. unfold sub, Y, fcut. unfold tcut, sparse. destruct SA as (_ & _ & TA).
          destruct (blk A r); cbn [bml_get_type] in TA; subst t; unfold mcut, madd, mscale; rewrite MA, MB by auto; reflexivity.
        + apply msum_meq. intros i j Hi Hj. unfold norm_of, sub. destruct t; unfold mhad; rewrite ?MA, ?MB by auto; reflexivity.
      - cbn [bind]. destruct (parts_dist t (with_blocks A (map fst l)) Y) as (O & R & M); auto.
        + cbn [with_blocks tblk]. rewrite map_length. exact LL.
        + intros r Hr. unfold blk. cbn [with_blocks tblk tp]. rewrite (nth_indep _ _ (fst (nowhere, k0 (s:=F)))) by (rewrite map_length, LL; exact Hr). rewrite map_nth.
          apply (HQ r (nowhere, k0) Hr).
        + eexists. split; [|split; [exact O|]; split; [exact R|]; split; [repeat split|exact M]]. do 2 f_equal.
          rewrite (allreduce_ok (tasks A)) by exact HO. rewrite HN, msum_blocks. unfold tasks in *.
          rewrite <- (bigsum_grid p (fun I J => msum n (sub n I J (norm_of t (gmx A) (gmx B))))). apply bigsum_ext. intros r Hr.
          rewrite (nth_indep _ _ (snd (nowhere (F:=F), k0 (s:=F)))) by (rewrite map_length, LL; exact Hr). rewrite map_nth. apply (HQ r (nowhere, k0) Hr).
    Qed.

    (** conversion of the blocks *)
    Lemma dist_convert_ok nz t' M : keeps_nonzero nz -> (0 < M)%nat ->
      exists C, dist_convert nz A t' M = Ok C /\ dist_ok t' C /\ tp C = p /\ tN C = tN A /\ tM C = M /\ tprec C = true /\
        meq (tN A) (gmx C) (gmx A).
    Proof.
      intros Hz HM. pose proof OA as ((Hp & Hn & HN) & HL & HB). unfold dist_convert.
      destruct (Nat.eqb_spec (tN A) 0) as [|_]; [nia|]. destruct (Nat.eqb_spec M 0) as [|_]; [lia|]. cbn [orb].
      unfold dist_setup. fold n. destruct (Nat.eqb_spec (n * p) (tN A)) as [_|]; [|nia]. cbn [bind].
      destruct (each_ok (tasks A) (fun r => bml_convert nz (blk A r) t' (bml_get_M (blk A r)))
        (fun r b => bwf b /\ bml_get_N b = n /\ bml_get_type b = t' /\ meq n (bmx b) (bmx (blk A r)))) as (l & -> & LL & HQ).
      - intros r Hr. destruct (HB r Hr) as (W & NN & T).
        destruct (bml_convert_ok nz (blk A r) t' (bml_get_M (blk A r)) W Hz) as (b & -> & Wb & Tb & Nb & Mb).
        + intros _. destruct (here t A OA RA r Hr) as [(_ & R & _) _]. destruct (blk A r) as [X|X|X]; cbn [bml_get_N bml_get_M] in *; try (destruct R as (R1 & R2 & R3)).
          * rewrite NN. lia.
          * lia.
          * destruct R3 as (R3 & _). lia.
        + eexists. split; [reflexivity|]. split; [exact Wb|]. split; [congruence|]. split; [exact Tb|]. rewrite <- NN. intros i j Hi Hj. symmetry. apply Mb; auto.
      - cbn [bind]. eexists. split; [reflexivity|]. assert (TN : tn (mkDist p (tN A) M true l) = n) by reflexivity. split.
        + split; [split; [exact Hp|]; split; [exact Hn|exact HN]|]. split; [exact LL|]. intros r Hr. unfold blk. cbn [tblk].
          destruct (HQ r nowhere Hr) as (W & N' & T & _). auto.
        + do 4 (split; [reflexivity|]). intros i j Hi Hj. unfold gmx. rewrite TN. cbn [tp]. unfold blk at 1. cbn [tblk].
          assert (DI : (i / n < p)%nat) by (apply Nat.div_lt_upper_bound; lia). assert (DJ : (j / n < p)%nat) by (apply Nat.div_lt_upper_bound; lia).
          apply (HQ (cart_rank p (i / n) (j / n)) nowhere); [unfold tasks; apply rank_lt; auto| |]; apply Nat.mod_upper_bound; lia.
    Qed.
  End One.
End Rest.

Section AddNorm.
  Context {F : scalar}.
  Local Open Scope K_scope.
  Variables A B : dist F.
  Variables (keep : F -> bool) (alpha beta : F) (E : nat -> env F) (order : list nat).
  Hypothesis RA : dist_roomy A.
  Hypothesis RB : dist_roomy B.
  Hypothesis GB : same_grid A B.
  Hypothesis HE : forall r, (r < tasks A)%nat -> good_schedules (tn A) (E r).
  Hypothesis HO : Permutation order (seq 0 (tasks A)).
  (** the number returned for dense blocks is the sum of the squares of B *)
  Lemma dist_add_norm_dense : dist_ok FDense A -> dist_ok FDense B ->
    exists C, dist_add_norm keep alpha beta A B E order = Ok (C, msum (tN A) (fun i j => gmx B i j * gmx B i j)) /\
      becomes FDense A C (madd (mscale alpha (gmx A)) (mscale beta (gmx B))).
  Proof. intros OA OB. exact (dist_add_norm_ok FDense A OA RA keep alpha beta B E order ltac:(discriminate) OB RB GB HE HO). Qed.
  (** for ellpack blocks it is the sum of the squares of A - B *)
  Lemma dist_add_norm_ell : dist_ok FEll A -> dist_ok FEll B ->
    exists C, dist_add_norm keep alpha beta A B E order = Ok (C, msum (tN A) (fun i j => (gmx A i j - gmx B i j) * (gmx A i j - gmx B i j))) /\
      becomes FEll A C (mcut keep (madd (mscale alpha (gmx A)) (mscale beta (gmx B)))).
  Proof. intros OA OB. exact (dist_add_norm_ok FEll A OA RA keep alpha beta B E order ltac:(discriminate) OB RB GB HE HO). Qed.
  (** csr blocks: not implemented *)
  Lemma dist_add_norm_csr : dist_ok FCsr A -> dist_ok FCsr B -> dist_add_norm keep alpha beta A B E order = Err.
  Proof.
    intros ((Hp & _ & _) & _ & HA) (_ & _ & HB). clear HE HO RA RB. unfold dist_add_norm, each.
    assert (TP : (0 < tasks A)%nat) by (unfold tasks; nia).
    assert (TB : tasks B = tasks A) by (unfold tasks; destruct GB as (-> & _); reflexivity).
    assert (Z : bml_add_norm keep alpha beta (blk A 0) (blk B 0) (E 0%nat) = Err).
    { destruct (HA 0%nat TP) as (_ & _ & TA). destruct (HB 0%nat ltac:(lia)) as (_ & _ & TB'). destruct (blk A 0), (blk B 0); try discriminate. reflexivity. }
    unfold for_n. destruct (tasks A) as [|k]; [lia|]. cbn [seq forM]. rewrite Z. reflexivity.
  Qed.
End AddNorm.
