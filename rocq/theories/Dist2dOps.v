(** The other operations on distributed matrices. *)
From Verif Require Import Base BaseFacts Spec SpecFacts EllpackModel EllpackSpec EllpackFacts EllpackOps EllpackExact EllpackRest EllpackMul2 EllpackNorm
  CsrModel CsrSpec CsrFacts CsrOps CsrMore CsrTop CsrHash CsrRoom
  GemmModel DenseModel DenseSpec DenseFacts DenseOps FormatModel FormatSpec FormatFacts FormatHistModel FormatHistSpec FormatHist
  MpiModel MpiSpec MpiFacts MpiRun Dist2dModel Dist2dSpec Dist2dLocal Dist2dFacts Dist2dCannon.
From Coq Require Import Ring.

Section DistOps.
  Context {F : scalar}.
  Local Notation bmat := (bmat F).
  Local Notation env := (env F).
  Local Notation dist := (dist F).
  Local Open Scope K_scope.
  Add Ring Kringd3 : (k_ring F).

  (** ** More operations on one block *)
  Lemma sh_set_row t n m keep (A : bmat) i (row : list F) : (i < n)%nat -> length row = n -> shaped t n m A ->
    exists B, bml_set_row keep A i row = Ok B /\ shaped t n m B /\
      meq n (bmx B) (fun a b => if (a =? i)%nat then fcut t keep (fun _ b => nth b row 0) a b else bmx A a b).
  Proof.
    intros Hi HL (W & R & T). assert (NN := proj1 R). destruct A as [A|A|A]; cbn [bml_get_type] in T; subst t; cbn [bml_get_N] in NN; cbn [bml_set_row bwf bmx fcut].
    - destruct (dense_set_row_ok A i row) as (B & EB & WB & NB & MB); [exact W|lia|lia|]. rewrite EB. exists (BDense B). split; [reflexivity|].
      split; [split; [exact WB|split; [split; [cbn; congruence|apply R]|reflexivity]]|]. intros a b Ha Hb. apply MB; lia.
    - destruct (ell_set_row_ok keep A i row) as (B & EB & U).
      + apply W. + lia. + lia.
      + eapply Nat.le_trans; [apply count_all|]. destruct R as (_ & R1 & ->). lia.
      + rewrite EB. exists (BEll B). split; [reflexivity|].
        assert (RK : row_ok (eN A) (eM A) (drow keep (eN A) (fun j => nth j row 0))).
        { apply drow_ok. eapply Nat.le_trans; [apply count_all|]. destruct R as (_ & R1 & ->). lia. }
        assert (WB : wf B) by (eapply upd_row_wf; eauto; lia).
        assert (U2 : forall a, (a < n)%nat -> a <> i -> erow B a = erow A a).
        { intros a Ha Na. eapply upd_row_other; eauto. apply wf_nnz; auto. lia. }
        destruct U as ([D1 D2] & _ & U1 & _). split.
        * split; [exact WB|]. split; [|reflexivity]. destruct R as (_ & R1 & R2). split; [cbn; congruence|]. split; [exact R1|]. congruence.
        * intros a b Ha Hb. cbn [bmx]. unfold emat. destruct (Nat.eqb_spec a i) as [->|Na].
          -- rewrite U1, elook_drow by lia. reflexivity.
          -- rewrite U2 by auto. reflexivity.
    - destruct (csr_set_row_ok keep A i row) as (B & EB & U); [exact W|lia|lia|]. rewrite EB. exists (BCsr B). split; [reflexivity|].
      destruct (cupd_wf A B i _ W ltac:(lia) U) as (WB & DB & B1 & B2). { apply (drow_ok keep (cN A) (cN A)). apply count_all. }
      assert (SP : ample n B) by (refine (ample_set_row n keep A i row _ B EB); apply (roomy_space n m (BCsr A)); auto).
      destruct R as (_ & R1 & R2 & R3 & R4). destruct DB as [DB1 DB2]. split.
      + split; [exact WB|]. split; [|reflexivity]. split; [cbn; congruence|]. split; [exact R1|]. split; [congruence|]. split; [exact R3|].
        apply (ample_calloc n B); auto. congruence.
      + intros a b Ha Hb. cbn [bmx]. unfold cmat. destruct (Nat.eqb_spec a i) as [->|Na].
        * rewrite B1, elook_drow by lia. reflexivity.
        * rewrite B2 by auto. reflexivity.
  Qed.

  Lemma sh_get_row t n m (A : bmat) i : (i < n)%nat -> shaped t n m A -> bml_get_row A i = Ok (map (bmx A i) (seq 0 n)).
  Proof. intros Hi (W & R & T). assert (NN := proj1 R). rewrite bml_get_row_ok by (auto; lia). rewrite NN. reflexivity. Qed.

  Lemma sh_zero t n m : (0 < n)%nat -> (n <= m)%nat -> (n <= table_max)%nat -> exists A, bml_zero_matrix t n m = Ok A /\ holds t n m (mzero : mat F) A.
  Proof.
    intros Hn Hm Ht. destruct t; cbn [bml_zero_matrix].
    - destruct (@dense_zero_ok F n) as (W & N & Z). eexists. split; [reflexivity|]. split; [split; [exact W|split; [repeat split; auto|reflexivity]]|].
      intros i j _ _. apply Z.
    - destruct (@zero_spec F n m) as (A & -> & EN & EM & W & Z); [lia|]. eexists. split; [reflexivity|].
      split; [split; [exact W|split; [repeat split; auto|reflexivity]]|]. exact Z.
    - destruct (@csr_zero_ok F n m) as (W & Z). eexists. split; [reflexivity|]. split.
      + split; [exact W|]. split; [|reflexivity]. split; [reflexivity|]. split; [exact Hm|]. split; [reflexivity|]. split; [exact Ht|].
        apply (ample_calloc n (csr_zero n m)); auto. apply ample_zero, Hm.
      + intros i j _ _. cbn [bmx]. unfold cmat. rewrite Z. reflexivity.
  Qed.
  Lemma sh_identity t n m e : (0 < n)%nat -> (n <= m)%nat -> (n <= table_max)%nat -> good_schedules n e ->
    exists A, bml_identity_matrix t n m e = Ok A /\ holds t n m (mid : mat F) A.
  Proof.
    intros Hn Hm Ht (E1 & _). specialize (E1 0%nat). destruct E1 as [E1 _]. destruct t; cbn [bml_identity_matrix].
    - destruct (@dense_identity_ok F n _ E1) as (A & -> & W & N & Z). eexists. split; [reflexivity|]. split; [split; [exact W|split; [repeat split; auto|reflexivity]]|]. exact Z.
    - destruct (@identity_spec F n m) as (A & -> & EN & EM & W & Z); [lia|]. eexists. split; [reflexivity|].
      split; [split; [exact W|split; [repeat split; auto|reflexivity]]|]. exact Z.
    - destruct (@csr_identity_ok F n m _ E1) as (A & EA & EN & EM & W & Z). rewrite EA. eexists. split; [reflexivity|]. split.
      + split; [exact W|]. split; [|reflexivity]. split; [exact EN|]. split; [exact Hm|]. split; [exact EM|]. split; [exact Ht|].
        apply (ample_calloc n A); auto. refine (ample_identity n n m _ Hm A EA).
      + intros i j Hi _. cbn [bmx]. unfold cmat, mid. rewrite Z by auto. cbn [elook]. rewrite Nat.eqb_sym. destruct (j =? i)%nat; reflexivity.
  Qed.
  Lemma sh_import t o n m keep (D : list F) e : (0 < n)%nat -> (n <= m)%nat -> (n <= table_max)%nat -> good_schedules n e -> length D = (n * n)%nat ->
    exists A, bml_import_from_dense t o n m keep D e = Ok A /\ holds t n m (fcut t keep (dmat o n D)) A.
  Proof.
    intros Hn Hm Ht (E1 & _) HL. specialize (E1 0%nat). destruct E1 as [E1 _]. destruct t; cbn [bml_import_from_dense fcut].
    - destruct (dense_import_ok o n D HL) as (A & -> & W & N & Z). eexists. split; [reflexivity|]. split; [split; [exact W|split; [repeat split; auto|reflexivity]]|]. exact Z.
    - destruct (ell_import_ok o n m keep D (e_rows e 0)) as (A & -> & EN & EM & W & Z); auto; [lia| |].
      + intros i Hi. eapply Nat.le_trans; [apply count_all|exact Hm].
      + eexists. split; [reflexivity|]. split; [split; [exact W|split; [repeat split; auto|reflexivity]]|].
        intros i j Hi Hj. cbn [bmx]. unfold emat. rewrite Z, elook_drow by auto. reflexivity.
    - destruct (csr_import_ok o n m keep D (e_rows e 0) HL E1) as (A & EA & EN & EM & W & Z). rewrite EA. eexists. split; [reflexivity|]. split.
      + split; [exact W|]. split; [|reflexivity]. split; [exact EN|]. split; [exact Hm|]. split; [exact EM|]. split; [exact Ht|].
        apply (ample_calloc n A); auto. refine (ample_import n o n m keep D _ Hm A EA).
      + intros i j Hi Hj. cbn [bmx]. unfold cmat. rewrite Z, elook_drow by auto. reflexivity.
  Qed.
  Lemma sh_export t n m (A : bmat) o e : good_schedules n e -> shaped t n m A ->
    exists D, bml_export_to_dense A o e = Ok D /\ length D = (n * n)%nat /\ meq n (dmat o n D) (bmx A).
  Proof.
    intros (E1 & _) (W & R & T). specialize (E1 0%nat). destruct E1 as [E1 _]. assert (NN := proj1 R).
    destruct A as [A|A|A]; cbn [bml_get_N] in NN; cbn [bml_export_to_dense bwf bmx] in *; rewrite <- NN in *.
    - apply dense_export_ok, W.
    - apply ell_export_ok; auto.
    - apply csr_export_ok; auto.
  Qed.

  (** ** Every task *)
  Lemma each_ok {X} P (f : nat -> res X) (Q : nat -> X -> Prop) : (forall r, (r < P)%nat -> exists x, f r = Ok x /\ Q r x) ->
    exists l, each P f = Ok l /\ length l = P /\ forall r d, (r < P)%nat -> Q r (nth r l d).
  Proof.
    intros H. unfold each. apply wp_ok. eapply wp_mono.
    - apply (for_n_inv (fun k l => length l = k /\ forall r d, (r < k)%nat -> Q r (nth r l d))).
      + split; [reflexivity|]. intros. lia.
      + intros k l Hk [HL HQ]. destruct (H k Hk) as (x & -> & Qx). cbn [bind]. apply wp_ok. eexists. split; [reflexivity|]. split.
        * rewrite app_length. cbn. lia.
        * intros r d Hr. destruct (Nat.eq_dec r k) as [->|Nr].
          -- rewrite app_nth2, HL, Nat.sub_diag by lia. exact Qx.
          -- rewrite app_nth1 by lia. apply HQ. lia.
    - auto.
  Qed.

  Lemma local_ok t (D : dist) (f : nat -> bmat -> res bmat) (Y : mat F) : dist_ok t D ->
    (forall r, (r < tasks D)%nat -> exists b, f r (blk D r) = Ok b /\ part_of t (tp D) (tn D) (tM D / tp D) Y r b) ->
    exists D', local D f = Ok D' /\ becomes t D D' Y /\ tprec D' = tprec D.
  Proof.
    intros ((Hp & Hn & HN) & _) H. unfold local. destruct (each_ok (tasks D) (fun r => f r (blk D r)) _ H) as (l & -> & HL & HQ). cbn [bind].
    eexists. split; [reflexivity|]. split; [|reflexivity].
    destruct (parts_dist t (with_blocks D l) Y) as (O & R & M); auto.
    - intros r Hr. apply HQ, Hr.
    - split; [exact O|]. split; [exact R|]. split; [repeat split|exact M].
  Qed.
  Lemma made_ok t p N M b (Y : mat F) (l : list bmat) : (0 < p)%nat -> (0 < N)%nat -> (N = p * (N / p))%nat -> length l = (p * p)%nat ->
    (forall r d, (r < p * p)%nat -> part_of t p (N / p) (M / p) Y r (nth r l d)) ->
    let D := mkDist p N M b l in dist_ok t D /\ dist_roomy D /\ meq N (gmx D) Y.
  Proof.
    intros Hp H0 HN HL HQ D. apply (parts_dist t D Y); auto; unfold tn; cbn [tp tN D]; auto; [|intros r Hr; apply HQ, Hr].
    destruct (N / p)%nat; lia.
  Qed.

  (** a block of a globally defined matrix *)
  Lemma part_ext t p n m (X Y : mat F) r b : (forall i j, (i < n)%nat -> (j < n)%nat -> X (cart_row p r * n + i)%nat (cart_col p r * n + j)%nat = Y (cart_row p r * n + i)%nat (cart_col p r * n + j)%nat) ->
    part_of t p n m X r b -> part_of t p n m Y r b.
  Proof. intros H [S M]. split; [exact S|]. intros i j Hi Hj. rewrite M by auto. apply H; auto. Qed.

  Lemma divs p n I i : (i < n)%nat -> (I < p)%nat -> ((I * n + i) / n = I /\ (I * n + i) mod n = i /\ I * n + i < p * n)%nat.
  Proof.
    intros Hi HI. rewrite Nat.div_add_l, (Nat.div_small i n) by lia. rewrite (Nat.add_comm (I * n)), Nat.mod_add, Nat.mod_small by lia.
    repeat split; nia.
  Qed.

  Section Elementwise.
    Variables (t : fmt) (A : dist).
    Hypothesis OA : dist_ok t A.
    Hypothesis RA : dist_roomy A.
    Local Notation n := (tn A).
    Local Notation p := (tp A).
    Local Notation m := (tM A / tp A)%nat.

    Lemma here r : (r < tasks A)%nat -> part_of t p n m (gmx A) r (blk A r).
    Proof. apply (dist_parts t A OA RA). Qed.
    Lemma n_pos : (0 < n)%nat. Proof. apply OA. Qed.
    Lemma p_pos : (0 < p)%nat. Proof. apply OA. Qed.

    (** addition: the threshold acts on every element *)
    Lemma dist_add_ok keep alpha beta (B : dist) E : dist_ok t B -> dist_roomy B -> same_grid A B ->
      (forall r, (r < tasks A)%nat -> good_schedules n (E r)) ->
      exists C, dist_add keep alpha beta A B E = Ok C /\ becomes t A C (fcut t keep (madd (mscale alpha (gmx A)) (mscale beta (gmx B)))) /\ tprec C = tprec A.
    Proof.
      intros OB RB (G1 & G2 & G3) HE. apply local_ok; [exact OA|]. intros r Hr. destruct (here r Hr) as [SA MA].
      assert (X := dist_parts t B OB RB r). unfold tn in X. rewrite <- G1, <- G2, <- G3 in X. destruct (X Hr) as [SB MB].
      destruct (sh_add t n m keep alpha beta (blk A r) (blk B r) (E r) n_pos (HE r Hr) SA SB) as (C & EC & SC & MC).
      exists C. split; [exact EC|]. split; [exact SC|]. eapply meq_trans; [exact MC|]. rewrite (tcut_type t) by apply SA.
      intros i j Hi Hj. rewrite (meq_fcut n t keep _ (madd (mscale alpha (sub n (cart_row p r) (cart_col p r) (gmx A))) (mscale beta (sub n (cart_row p r) (cart_col p r) (gmx B))))); auto.
      - destruct t; reflexivity.
      - apply meq_madd; apply meq_mscale; auto.
    Qed.

    (** the identity is added to every block *)
    Lemma dist_scale_add_identity_ok keep alpha beta E : (forall r, (r < tasks A)%nat -> good_schedules n (E r)) ->
      exists C, dist_scale_add_identity keep alpha beta A E = Ok C /\
        becomes t A C (fcut t keep (madd (mscale alpha (gmx A)) (mscale beta (tiled_identity n)))) /\ tprec C = tprec A.
    Proof.
      intros HE. apply local_ok; [exact OA|]. intros r Hr. destruct (here r Hr) as [SA MA].
      destruct (sh_scale_add_identity t n m keep alpha beta (blk A r) (E r) n_pos (HE r Hr) SA) as (C & EC & SC & MC).
      exists C. split; [exact EC|]. split; [exact SC|]. eapply meq_trans; [exact MC|]. rewrite (tcut_type t) by apply SA.
      intros i j Hi Hj. rewrite (meq_fcut n t keep _ (madd (mscale alpha (sub n (cart_row p r) (cart_col p r) (gmx A))) (mscale beta (sub n (cart_row p r) (cart_col p r) (tiled_identity n))))); auto.
      - destruct t; reflexivity.
      - apply meq_madd; apply meq_mscale; auto. intros a b Ha Hb. unfold sub, tiled_identity, mid.
        rewrite !(Nat.add_comm (_ * n)), !Nat.mod_add, !Nat.mod_small by lia. reflexivity.
    Qed.
    Lemma dist_add_identity_ok keep beta E : (forall r, (r < tasks A)%nat -> good_schedules n (E r)) ->
      exists C, dist_add_identity keep beta A E = Ok C /\
        becomes t A C (fcut t keep (madd (gmx A) (mscale beta (tiled_identity n)))) /\ tprec C = tprec A.
    Proof.
      intros HE. apply local_ok; [exact OA|]. intros r Hr. destruct (here r Hr) as [SA MA].
      destruct (sh_add_identity t n m keep beta (blk A r) (E r) n_pos (HE r Hr) SA) as (C & EC & SC & MC).
      exists C. split; [exact EC|]. split; [exact SC|]. eapply meq_trans; [exact MC|]. rewrite (tcut_type t) by apply SA.
      intros i j Hi Hj. rewrite (meq_fcut n t keep _ (madd (sub n (cart_row p r) (cart_col p r) (gmx A)) (mscale beta (sub n (cart_row p r) (cart_col p r) (tiled_identity n))))); auto.
      - destruct t; reflexivity.
      - apply meq_madd; [auto|]; apply meq_mscale; auto. intros a b Ha Hb. unfold sub, tiled_identity, mid.
        rewrite !(Nat.add_comm (_ * n)), !Nat.mod_add, !Nat.mod_small by lia. reflexivity.
    Qed.

    Lemma dist_scale_inplace_ok a E : (forall r, (r < tasks A)%nat -> good_schedules n (E r)) ->
      exists C, dist_scale_inplace a A E = Ok C /\ becomes t A C (mscale a (gmx A)) /\ tprec C = tprec A.
    Proof.
      intros HE. apply local_ok; [exact OA|]. intros r Hr. destruct (here r Hr) as [SA MA].
      destruct (sh_scale_inplace t n m a (blk A r) (E r) (HE r Hr) SA) as (C & EC & SC & MC).
      exists C. split; [exact EC|]. split; [exact SC|]. eapply meq_trans; [exact MC|]. apply (meq_mscale n a _ _ MA).
    Qed.
    Lemma dist_threshold_ok keep E : (forall r, (r < tasks A)%nat -> good_schedules n (E r)) ->
      exists C, dist_threshold keep A E = Ok C /\ becomes t A C (mcut keep (gmx A)) /\ tprec C = tprec A.
    Proof.
      intros HE. apply local_ok; [exact OA|]. intros r Hr. destruct (here r Hr) as [SA MA].
      destruct (sh_threshold t n m keep (blk A r) (E r) (HE r Hr) SA) as (C & EC & SC & MC).
      exists C. split; [exact EC|]. split; [exact SC|]. eapply meq_trans; [exact MC|]. apply (meq_mcut n keep _ _ MA).
    Qed.

    Lemma new_ok (f : nat -> res bmat) (Y : mat F) : (forall r, (r < tasks A)%nat -> exists b, f r = Ok b /\ part_of t p n m Y r b) ->
      exists l, each (tasks A) f = Ok l /\ becomes t A (mkDist p (tN A) (tM A) true l) Y.
    Proof.
      intros H. destruct (each_ok (tasks A) f _ H) as (l & -> & HL & HQ). exists l. split; [reflexivity|].
      destruct OA as ((Hp & Hn & HN) & _). destruct (made_ok t p (tN A) (tM A) true Y l) as (O & R & M); auto; [nia|].
      split; [exact O|]. split; [exact R|]. split; [repeat split|exact M].
    Qed.
    Lemma dist_copy_new_ok E : (forall r k, (r < tasks A)%nat -> good_schedules n (E r k)) ->
      exists C, dist_copy_new A E = Ok C /\ becomes t A C (gmx A) /\ tprec C = true.
    Proof.
      intros HE. destruct OA as ((Hp & Hn & HN) & _). unfold dist_copy_new.
      destruct (new_ok (fun r => dist_copy_block p (tN A) (tM A) (blk A r) (E r 0%nat) (E r 1%nat)) (gmx A)) as (l & -> & B).
      - intros r Hr. apply (sh_dist_copy t p n m); auto. apply here, Hr.
      - eexists. split; [reflexivity|]. auto.
    Qed.
    Lemma dist_copy_ok (B : dist) E : dist_ok t B -> dist_roomy B -> same_grid B A -> (forall r, (r < tasks A)%nat -> good_schedules n (E r)) ->
      exists C, dist_copy A B E = Ok C /\ becomes t B C (gmx A) /\ tprec C = tprec B.
    Proof.
      intros OB RB (G1 & G2 & G3) HE. unfold dist_copy. apply local_ok; [exact OB|].
      assert (TB : tn B = n) by (unfold tn; congruence). intros r Hr. assert (Hr' : (r < tasks A)%nat) by (unfold tasks in *; congruence).
      destruct (dist_parts t B OB RB r Hr) as [SB _]. rewrite TB, G1, G3 in *. apply (sh_copy t n m); auto; [apply n_pos|apply here, Hr'].
    Qed.
    Lemma dist_threshold_new_ok keep E : (forall r k, (r < tasks A)%nat -> good_schedules n (E r k)) ->
      exists C, dist_threshold_new keep A E = Ok C /\ becomes t A C (mcut keep (gmx A)) /\ tprec C = true.
    Proof.
      intros HE. destruct OA as ((Hp & Hn & HN) & _). unfold dist_threshold_new.
      assert (HM : tM A <> 0%nat).
      { intros Z. assert (X : (0 < tasks A)%nat) by (unfold tasks; nia). destruct (RA 0%nat X) as (_ & L & _). rewrite Z, Nat.div_0_l in L; lia. }
      destruct (Nat.eqb_spec (tM A) 0) as [|_]; [contradiction|].
      destruct (new_ok (fun r => B <- dist_copy_block p (tN A) (tM A) (blk A r) (E r 0%nat) (E r 1%nat) ;; bml_threshold keep B (E r 2%nat)) (mcut keep (gmx A))) as (l & -> & B).
      - intros r Hr. destruct (sh_dist_copy t p n m (tN A) (tM A) (blk A r) _ (E r 0%nat) (E r 1%nat) Hn Hp HN eq_refl (HE r 1%nat Hr) (here r Hr)) as (B & -> & SB & MB).
        cbn [bind]. destruct (sh_threshold t n m keep B (E r 2%nat) (HE r 2%nat Hr) SB) as (C & EC & SC & MC). exists C. split; [exact EC|].
        split; [exact SC|]. eapply meq_trans; [exact MC|]. apply (meq_mcut n keep _ _ MB).
      - eexists. split; [reflexivity|]. auto.
    Qed.

    (** ** Rows *)
    Lemma window_length (off k : nat) (l : list F) : (off + k <= length l)%nat -> length (window off k l) = k.
    Proof. intros H. unfold window. rewrite firstn_length, skipn_length. lia. Qed.
    Lemma window_nth (off k : nat) (l : list F) j d : (j < k)%nat -> nth j (window off k l) d = nth (off + j) l d.
    Proof. intros H. unfold window. rewrite nth_firstn_lt by exact H. revert off. induction l as [|x l IH]; intros [|off]; cbn; auto; try (destruct j; reflexivity); apply IH. Qed.

    Lemma dist_set_row_ok keep i (row : list F) : tprec A = true -> (i < tN A)%nat -> length row = tN A ->
      exists C, dist_set_row keep A i row = Ok C /\
        becomes t A C (fun a b => if (a =? i)%nat then fcut t keep (fun _ b => nth b row 0) a b else gmx A a b) /\ tprec C = true.
    Proof.
      intros HP Hi HL. unfold dist_set_row. rewrite HP. pose proof OA as ((Hp & Hn & HN) & _). rewrite HN in *.
      destruct (local_ok t A (fun r b =>
        if (i <? myprow A r * n)%nat then Ok b else
        if ((myprow A r + 1) * n <=? i)%nat then Ok b else
        bml_set_row keep b (i - myprow A r * n)%nat (window (mypcol A r * n)%nat n row))
        (fun a b => if (a =? i)%nat then fcut t keep (fun _ b => nth b row 0) a b else gmx A a b) OA) as (C & EC & BC & PC).
      - intros r Hr. assert (HI := row_lt _ _ Hr). assert (HJ := col_lt p r Hp). fold (myprow A r) (mypcol A r) in *.
        assert (HH := here r Hr). destruct (Nat.ltb_spec i (myprow A r * n)) as [L1|L1].
        + eexists. split; [reflexivity|]. eapply part_ext; [|exact HH]. intros a b Ha Hb. cbv beta. fold (myprow A r).
          destruct (Nat.eqb_spec (myprow A r * n + a) i); [lia|reflexivity].
        + destruct (Nat.leb_spec ((myprow A r + 1) * n) i) as [L2|L2].
          * eexists. split; [reflexivity|]. eapply part_ext; [|exact HH]. intros a b Ha Hb. cbv beta. fold (myprow A r).
            destruct (Nat.eqb_spec (myprow A r * n + a) i); [lia|reflexivity].
          * destruct HH as [SA MA]. destruct (sh_set_row t n m keep (blk A r) (i - myprow A r * n) (window (mypcol A r * n) n row)) as (C & EC & SC & MC); auto.
            { lia. } { apply window_length. nia. }
            exists C. split; [exact EC|]. split; [exact SC|]. eapply meq_trans; [exact MC|]. intros a b Ha Hb. unfold sub at 1.
            fold (myprow A r) (mypcol A r).
            destruct (Nat.eqb_spec a (i - myprow A r * n)) as [Ea|Na]; destruct (Nat.eqb_spec (myprow A r * n + a) i) as [E|E]; try lia.
            -- destruct t; cbn [fcut]; unfold mcut; rewrite window_nth by exact Hb; reflexivity.
            -- rewrite MA by auto. reflexivity.
      - exists C. rewrite HP in PC. auto.
    Qed.

    Lemma dist_set_diagonal_ok keep (diag : list F) : tprec A = true -> length diag = tN A ->
      exists C, dist_set_diagonal keep A diag = Ok C /\
        becomes t A C (fun a b => if (a =? b)%nat then fcut t keep (fun a _ => nth a diag 0) a b else gmx A a b) /\ tprec C = true.
    Proof.
      intros HP HL. unfold dist_set_diagonal. rewrite HP. pose proof OA as ((Hp & Hn & HN) & _).
      destruct (local_ok t A (fun r b =>
        if (myprow A r =? mypcol A r)%nat
        then let offset := (myprow A r * tN A / tp A)%nat in bml_set_diagonal keep b (window offset n diag)
        else Ok b) (fun a b => if (a =? b)%nat then fcut t keep (fun a _ => nth a diag 0) a b else gmx A a b) OA) as (C & EC & BC & PC).
      - intros r Hr. assert (HI := row_lt _ _ Hr). assert (HJ := col_lt p r Hp). fold (myprow A r) (mypcol A r) in *.
        assert (HH := here r Hr). destruct (Nat.eqb_spec (myprow A r) (mypcol A r)) as [EQ|NE].
        + cbv zeta. replace (myprow A r * tN A / tp A)%nat with (myprow A r * n)%nat.
          2:{ rewrite HN, (Nat.mul_comm p n), Nat.mul_assoc, Nat.div_mul by lia. reflexivity. }
          destruct HH as [SA MA]. destruct (sh_set_diagonal t n m keep (blk A r) (window (myprow A r * n) n diag)) as (C & EC & SC & MC); auto.
          { apply window_length. nia. }
          exists C. split; [exact EC|]. split; [exact SC|]. eapply meq_trans; [exact MC|]. intros a b Ha Hb. unfold sub at 1.
          fold (myprow A r) (mypcol A r). rewrite <- EQ.
          destruct (Nat.eqb_spec a b) as [Ea|Na]; destruct (Nat.eqb_spec (myprow A r * n + a) (myprow A r * n + b)) as [E|E]; try lia.
          * rewrite (tcut_type t) by apply SA. subst b. destruct t; cbn [fcut]; unfold mcut; rewrite window_nth by exact Ha; reflexivity.
          * rewrite MA by auto. unfold sub. fold (myprow A r) (mypcol A r). rewrite <- EQ. reflexivity.
        + eexists. split; [reflexivity|]. eapply part_ext; [|exact HH]. intros a b Ha Hb. cbv beta. fold (myprow A r) (mypcol A r).
          destruct (Nat.eqb_spec (myprow A r * n + a) (mypcol A r * n + b)) as [E|]; [|reflexivity]. exfalso. apply NE. nia.
      - exists C. rewrite HP in PC. auto.
    Qed.
  End Elementwise.
End DistOps.
