(** Diagonalisation and inverse: the code around the LAPACK routines. *)
From Verif Require Import Base BaseFacts Spec SpecFacts EllpackModel EllpackSpec EllpackFacts EllpackOps EllpackMore EllpackMul2 CsrModel CsrSpec CsrFacts CsrOps CsrTop
  GemmModel DenseModel DenseSpec DenseFacts DenseOps
  EllblockModel EllblockSpec EllblockFacts EllblockHeap EllblockRead EllblockBuild EllblockMake EllblockCopy EllblockProd EllpackExact LapackModel LapackSpec.
From Coq Require Import Permutation.

Section LapackFacts.
  Context {F : scalar}.
  Local Open Scope K_scope.
  Add Ring KRlp : (k_ring F).
  Local Notation dense := (dense F).

  Lemma mmul_ext N (A A' B B' : mat F) : meq N A A' -> meq N B B' -> meq N (mmul N A B) (mmul N A' B').
  Proof. intros HA HB i j Hi Hj. unfold mmul. apply bigsum_ext. intros k Hk. rewrite HA, HB by auto. reflexivity. Qed.
  Lemma inverse_ext N (X X' Y Y' : mat F) : meq N X X' -> meq N Y Y' -> inverse_of N X Y -> inverse_of N X' Y'.
  Proof.
    intros HX HY [H1 H2]. split; intros i j Hi Hj.
    - rewrite <- H1 by auto. symmetry. apply mmul_ext; auto.
    - rewrite <- H2 by auto. symmetry. apply mmul_ext; auto.
  Qed.
  Lemma eigensystem_ext conj le N X X' w (V V' : mat F) : meq N X X' -> meq N V V' -> eigensystem conj le N X w V -> eigensystem conj le N X' w V'.
  Proof.
    intros HX HV (H1 & H2 & H3 & H4). split; [|split; [|split; auto]].
    - intros i j Hi Hj. rewrite <- (mmul_ext N X X' V V' HX HV i j Hi Hj), H1 by auto. apply mmul_ext; auto. intros a b _ _; auto.
    - eapply inverse_ext; [| |exact H2]; auto. intros a b Ha Hb. unfold madj. rewrite HV by auto. reflexivity.
  Qed.
  Lemma inverse_trans N (X Y : mat F) : inverse_of N X Y -> inverse_of N (mtrans X) (mtrans Y).
  Proof.
    intros [H1 H2]. split; intros i j Hi Hj.
    - transitivity (mmul N Y X j i); [unfold mmul, mtrans; apply bigsum_ext; intros; ring|]. rewrite H2 by auto. unfold mid. rewrite Nat.eqb_sym. reflexivity.
    - transitivity (mmul N X Y j i); [unfold mmul, mtrans; apply bigsum_ext; intros; ring|]. rewrite H1 by auto. unfold mid. rewrite Nat.eqb_sym. reflexivity.
  Qed.

  Section Calls.
    Variable conj : F -> F.
    Variable le : F -> F -> Prop.
    Variable eigs : nat -> list F -> res (list F * list F).
    Variable invs : nat -> list F -> res (list F).

    Lemma upper_hermitian N (X : mat F) a : (forall x, conj (conj x) = x) -> by_rows N X a -> hermitian conj N X -> meq N (upper conj N a) (mtrans X).
    Proof.
      intros Hc [_ HX] HH i j Hi Hj. unfold upper, colm, mtrans. destruct (Nat.leb_spec i j).
      - rewrite (Nat.add_comm i), HX by auto. reflexivity.
      - rewrite (Nat.add_comm j), HX by auto. rewrite (HH i j) by auto. unfold madj. apply Hc.
    Qed.

    Lemma dense_diagonalize_ok (A : dense) (ev : list F) (E : dense) : dwf A -> dwf E -> dN E = dN A -> length ev = dN A ->
      eig_call conj le eigs (dN A) (dmx A) ->
      exists w E', dense_diagonalize eigs A ev E = Ok (w, E') /\ length w = dN A /\ dwf E' /\ dN E' = dN A /\
        eigensystem conj le (dN A) (upper conj (dN A) (dmx A)) w (denm E').
    Proof.
      intros HA HE EN Lev (w & v & Ecall & Lw & Lv & HS). exists w. unfold dense_diagonalize. set (N := dN A) in *.
      rewrite copy_all by (rewrite ?repeat_length; auto; apply HA). cbn [bind]. rewrite Ecall. cbn [bind].
      assert (Hloop : exists m, for_n N (fun i '(ev, m) =>
          x <- rd w i ;; ev <- wr ev i x ;;
          m <- for_n N (fun j m => x <- rd v (COLMAJOR i j N N) ;; wr m (ROWMAJOR i j N N) x) m ;;
          Ok (ev, m)) (ev, dmx E) = Ok (w, m) /\ length m = (N * N)%nat /\
          forall i j, (i < N)%nat -> (j < N)%nat -> nth (i * N + j) m 0 = nth (i + j * N) v 0).
      { cut (exists r, for_n N (fun i '(ev, m) =>
          x <- rd w i ;; ev <- wr ev i x ;;
          m <- for_n N (fun j m => x <- rd v (COLMAJOR i j N N) ;; wr m (ROWMAJOR i j N N) x) m ;;
          Ok (ev, m)) (ev, dmx E) = Ok r /\ length (fst r) = N /\ (forall i, (i < N)%nat -> nth i (fst r) 0 = nth i w 0) /\ length (snd r) = (N * N)%nat /\
          forall i j, (i < N)%nat -> (j < N)%nat -> nth (i * N + j) (snd r) 0 = nth (i + j * N) v 0).
        { intros ((ev', m) & E' & L1 & H1 & L2 & H2). exists m. cbn [fst snd] in *. split; [|auto]. rewrite E'. repeat f_equal.
          apply (list_ext_nth _ _ 0); [congruence|]. intros i Hi. apply H1. lia. }
        apply wp_ok. eapply wp_mono. { apply (for_n_inv (fun i (r : list F * list F) => length (fst r) = N /\ (forall p, (p < i)%nat -> nth p (fst r) 0 = nth p w 0) /\ length (snd r) = (N * N)%nat /\
            forall p j, (p < i)%nat -> (j < N)%nat -> nth (p * N + j) (snd r) 0 = nth (p + j * N) v 0)).
          - cbn [fst snd]. split; [auto|]. split; [intros; lia|]. split; [rewrite HE, EN; reflexivity|]. intros; lia.
          - intros i [ev1 m1] Hi (L1 & V1 & L2 & V2). cbn [fst snd] in *. apply wp_bind. rewrite (rd_ok _ _ 0) by lia. cbn [wpq]. apply wp_bind. rewrite wr_ok by lia. cbn [wpq].
            apply wp_bind. eapply wp_mono. { apply (for_n_inv (fun j (m : list F) => length m = (N * N)%nat /\
                forall p q, (q < N)%nat -> (p < i \/ (p = i /\ q < j))%nat -> nth (p * N + q) m 0 = nth (p + q * N) v 0)).
              - split; auto. intros p q Hq [Hp|[_ Hp]]; [auto|lia].
              - intros j m Hj (Lm & Vm). apply wp_bind. rewrite (rd_ok _ _ 0) by (unfold COLMAJOR; rewrite Lv; nia). cbn [wpq].
                rewrite wr_ok by (unfold ROWMAJOR; rewrite Lm; nia). cbn [wpq]. rewrite length_set_nth. split; auto. intros p q Hq Hp. unfold ROWMAJOR, COLMAJOR.
                destruct (Nat.eq_dec (p * N + q) (i * N + j)) as [Epq|Hne].
                + rewrite Epq, nth_set_nth_eq by (rewrite Lm; nia). apply rowmajor_inj in Epq as [-> ->]; auto.
                + rewrite nth_set_nth_neq by auto. apply Vm; auto. destruct Hp as [|[-> Hp]]; auto. right. split; auto. assert (q <> j) by (intros ->; auto). lia. }
            intros m (Lm & Vm). cbn [wpq fst snd]. rewrite length_set_nth. split; auto. split; [|split; auto].
            + intros p Hp. destruct (Nat.eq_dec p i) as [->|]; [apply nth_set_nth_eq; lia|]. rewrite nth_set_nth_neq by auto. apply V1. lia.
            + intros p j Hp Hj. apply Vm; auto. lia. }
        intros r (L1 & V1 & L2 & V2). auto. }
      destruct Hloop as (m & -> & Lm & Vm). cbn [bind]. eexists. split; [reflexivity|]. split; auto. split; [unfold dwf; cbn [dmx dN]; rewrite EN; auto|]. split; [exact EN|].
      eapply eigensystem_ext; [| |exact HS]; [intros i j _ _; reflexivity|]. intros i j Hi Hj. unfold denm, colm. cbn [dmx dN]. rewrite EN. symmetry. apply Vm; auto.
    Qed.

    Lemma by_rows_dense (A : dense) : dwf A -> by_rows (dN A) (denm A) (dmx A).
    Proof. intros H. split; [exact H|]. intros. reflexivity. Qed.
    Lemma by_rows_dmat N X (D : list F) : length D = (N * N)%nat -> meq N (dmat row_major N D) X -> by_rows N X D.
    Proof. intros L H. split; auto. Qed.
    Lemma by_rows_ext N X Y (a : list F) : meq N X Y -> by_rows N X a -> by_rows N Y a.
    Proof. intros H [L V]. split; auto. intros i j Hi Hj. rewrite V by auto. auto. Qed.

    Hypothesis conj_inv : forall x, conj (conj x) = x.

    (** dense: the eigenvectors of the transpose *)
    Lemma dense_diagonalize_trans (A : dense) (ev : list F) (E : dense) : dwf A -> dwf E -> dN E = dN A -> length ev = dN A -> hermitian conj (dN A) (denm A) ->
      (forall a, by_rows (dN A) (denm A) a -> eig_call conj le eigs (dN A) a) ->
      exists w E', dense_diagonalize eigs A ev E = Ok (w, E') /\ length w = dN A /\ dwf E' /\ dN E' = dN A /\
        eigensystem conj le (dN A) (mtrans (denm A)) w (denm E').
    Proof.
      intros HA HE EN Lev HH Hc. destruct (dense_diagonalize_ok A ev E HA HE EN Lev (Hc _ (by_rows_dense A HA))) as (w & E' & E1 & Lw & W & N' & HS).
      exists w, E'. split; [exact E1|]. split; [exact Lw|]. split; [exact W|]. split; [exact N'|]. eapply eigensystem_ext; [|intros i j _ _; reflexivity|exact HS]. apply upper_hermitian; auto. apply by_rows_dense; auto.
    Qed.
    Lemma diagonalize_array_ok N X (D ev : list F) : by_rows N X D -> length ev = N -> hermitian conj N X -> (forall a, by_rows N X a -> eig_call conj le eigs N a) ->
      exists w D', diagonalize_array eigs N D ev = Ok (w, D') /\ length w = N /\ length D' = (N * N)%nat /\ eigensystem conj le N (mtrans X) w (dmat row_major N D').
    Proof.
      intros [L V] Lev HH Hc. unfold diagonalize_array. destruct (dense_import_ok row_major N D L) as (A & -> & WA & NA & VA). cbn [bind].
      assert (HX : meq N (denm A) X). { intros i j Hi Hj. rewrite VA by auto. apply V; auto. }
      destruct (dense_diagonalize_trans A ev (dense_zero N)) as (w & E & -> & Lw & WE & NE & HS).
      - auto.
      - unfold dwf. cbn. apply repeat_length.
      - cbn. auto.
      - congruence.
      - rewrite NA. intros i j Hi Hj. unfold madj. rewrite !HX by auto. apply HH; auto.
      - rewrite NA. intros a Ha. apply Hc. eapply by_rows_ext; eauto.
      - cbn [bind]. destruct (dense_export_ok E row_major WE) as (D' & -> & LD & VD). cbn [bind]. rewrite NE, NA in *. exists w, D'. split; [reflexivity|]. split; [exact Lw|]. split; [exact LD|].
        eapply eigensystem_ext; [| |exact HS]; intros i j Hi Hj; unfold mtrans; rewrite ?HX, ?VD by auto; reflexivity.
    Qed.

    Lemma inverse_array_ok N X (D : list F) : by_rows N X D -> (exists Y, inverse_of N X Y) -> (forall a, by_rows N X a -> inv_call invs N a) ->
      exists D', inverse_array invs N D = Ok D' /\ length D' = (N * N)%nat /\ inverse_of N X (dmat row_major N D').
    Proof.
      intros HD [Y HY] Hc. pose proof HD as [L V]. unfold inverse_array. destruct (dense_import_ok row_major N D L) as (A & -> & WA & NA & VA). cbn [bind].
      assert (HX : by_rows N X (dmx A)). { split; [rewrite <- NA; exact WA|]. intros i j Hi Hj. specialize (VA i j Hi Hj). unfold denm in VA. rewrite NA in VA. rewrite VA. apply V; auto. }
      assert (HT : meq N (colm N (dmx A)) (mtrans X)). { intros i j Hi Hj. unfold colm, mtrans. rewrite (Nat.add_comm i). apply HX; auto. }
      destruct (Hc _ HX) as (b & Eb & Lb & Hb).
      { exists (mtrans Y). eapply inverse_ext; [| |apply inverse_trans, HY]; intros i j Hi Hj; [rewrite HT by auto|]; reflexivity. }
      unfold dense_inverse_inplace. rewrite NA, Eb. cbn [bind].
      destruct (dense_export_ok (mkDense N b) row_major) as (D' & -> & LD & VD); [exact Lb|]. cbn [dN] in *. exists D'. split; [reflexivity|]. split; [exact LD|].
      apply inverse_trans in Hb. eapply inverse_ext; [| |exact Hb]; intros i j Hi Hj.
      - unfold mtrans at 1. rewrite HT by auto. reflexivity.
      - rewrite VD by auto. unfold mtrans, colm, denm. cbn [dN dmx]. rewrite Nat.add_comm. reflexivity.
    Qed.
    Lemma dense_inverse_ok (A : dense) (gv : nat -> F) : dwf A -> (exists Y, inverse_of (dN A) (denm A) Y) ->
      (forall a, by_rows (dN A) (denm A) a -> inv_call invs (dN A) a) ->
      exists B, dense_inverse invs A gv = Ok B /\ dwf B /\ dN B = dN A /\ inverse_of (dN A) (denm A) (denm B).
    Proof.
      intros WA [Y HY] Hc. unfold dense_inverse. rewrite dense_copy_new_ok by auto. cbn [bind]. unfold dense_inverse_inplace.
      assert (HT : meq (dN A) (colm (dN A) (dmx A)) (mtrans (denm A))). { intros i j Hi Hj. unfold colm, mtrans, denm. rewrite (Nat.add_comm i). reflexivity. }
      destruct (Hc _ (by_rows_dense A WA)) as (b & Eb & Lb & Hb).
      { exists (mtrans Y). eapply inverse_ext; [| |apply inverse_trans, HY]; intros i j Hi Hj; [rewrite HT by auto|]; reflexivity. }
      rewrite Eb. cbn [bind]. eexists. split; [reflexivity|]. split; [exact Lb|]. split; [reflexivity|].
      apply inverse_trans in Hb. eapply inverse_ext; [| |exact Hb]; intros i j Hi Hj.
      - unfold mtrans at 1. rewrite HT by auto. reflexivity.
      - unfold mtrans, colm, denm. cbn [dN dmx]. rewrite Nat.add_comm. reflexivity.
    Qed.

    (** ** ellpack, csr, ellblock *)
    Lemma count_seq N (p : nat -> bool) : (count N p <= N)%nat.
    Proof. unfold count. rewrite <- (seq_length N 0) at 2. apply filter_length_le. Qed.
    Lemma keep_import_ell N (D : list F) (keep : F -> bool) M sched : keeps_nonzero keep -> (0 < M)%nat -> length D = (N * N)%nat -> Permutation (map snd sched) (seq 0 N) ->
      fits N M keep (dmat row_major N D) -> exists A, ell_import row_major N M keep D sched = Ok A /\ eN A = N /\ eM A = M /\ wf A /\ meq N (emat A) (dmat row_major N D).
    Proof.
      intros Hk HM L HP Hf. destruct (ell_import_ok row_major N M keep D sched HM L HP Hf) as (A & E & EN & EM & W & R). exists A. repeat (split; auto; try apply W).
      intros i j Hi Hj. unfold emat. rewrite R, elook_drow by auto. apply cut_exact; auto.
    Qed.
    Lemma keep_import_csr N (D : list F) (keep : F -> bool) M sched : keeps_nonzero keep -> length D = (N * N)%nat -> Permutation (map snd sched) (seq 0 N) ->
      exists A, csr_import row_major N M keep D sched = Ok A /\ cN A = N /\ cM A = M /\ cwf A /\ (forall i, (i < N)%nat -> (length (crow A i) <= N)%nat) /\ meq N (cmat A) (dmat row_major N D).
    Proof.
      intros Hk L HP. destruct (csr_import_ok row_major N M keep D sched L HP) as (A & E & EN & EM & W & R). exists A.
      split; [exact E|]. split; [exact EN|]. split; [exact EM|]. split; [exact W|]. split.
      - intros i Hi. rewrite R, drow_length by auto. apply count_seq.
      - intros i j Hi Hj. unfold cmat. rewrite R, elook_drow by auto. apply cut_exact; auto.
    Qed.

    Lemma ell_diagonalize_ok (keep : F -> bool) (A : ell F) (ev : list F) (E : ell F) s1 s2 : wf A -> wf E -> EllpackSpec.same_dims A E -> (0 < eM A)%nat -> (eN A <= eM A)%nat ->
      length ev = eN A -> keeps_nonzero keep -> Permutation (map snd s1) (seq 0 (eN A)) -> Permutation (map snd s2) (seq 0 (eN A)) ->
      hermitian conj (eN A) (emat A) -> (forall a, by_rows (eN A) (emat A) a -> eig_call conj le eigs (eN A) a) ->
      exists w E', ell_diagonalize eigs keep A ev E s1 s2 = Ok (w, E') /\ length w = eN A /\ wf E' /\ EllpackSpec.same_dims A E' /\
        eigensystem conj le (eN A) (mtrans (emat A)) w (emat E').
    Proof.
      intros WA WE DE HM HNM Lev Hk P1 P2 HH Hc. unfold ell_diagonalize. destruct (ell_export_ok row_major A s1 WA P1) as (D & -> & LD & VD). cbn [bind].
      destruct (diagonalize_array_ok (eN A) (emat A) D ev) as (w & D' & -> & Lw & LD' & HS); auto. { apply by_rows_dmat; auto. }
      cbn [bind]. destruct (keep_import_ell (eN A) D' keep (eM A) s2 Hk HM LD' P2) as (X & -> & NX & MX & WX & VX).
      { intros i Hi. etransitivity; [apply count_seq|lia]. }
      cbn [bind]. rewrite ell_copy_ok; [|apply WX|apply WE| |lia].
      - cbn [bind]. exists w, X. split; [reflexivity|]. split; [exact Lw|]. split; [exact WX|]. split; [split; congruence|].
        eapply eigensystem_ext; [| |exact HS]; intros i j Hi Hj; [reflexivity|]. rewrite VX by auto. reflexivity.
      - destruct DE. split; congruence.
    Qed.
    Lemma csr_diagonalize_ok (keep : F -> bool) (A : csr F) (ev : list F) (E : csr F) s1 s2 s3 : cwf A -> cwf E -> cN E = cN A -> (forall i, (i < cN A)%nat -> (cN A <= calloc E i)%nat) ->
      length ev = cN A -> keeps_nonzero keep -> Permutation (map snd s1) (seq 0 (cN A)) -> Permutation (map snd s2) (seq 0 (cN A)) -> Permutation (map snd s3) (seq 0 (cN A)) ->
      hermitian conj (cN A) (cmat A) -> (forall a, by_rows (cN A) (cmat A) a -> eig_call conj le eigs (cN A) a) ->
      exists w E', csr_diagonalize eigs keep A ev E s1 s2 s3 = Ok (w, E') /\ length w = cN A /\ cwf E' /\ cdims E E' /\
        eigensystem conj le (cN A) (mtrans (cmat A)) w (cmat E').
    Proof.
      intros WA WE NE HR Lev Hk P1 P2 P3 HH Hc. unfold csr_diagonalize. destruct (csr_export_ok row_major A s1 WA P1) as (D & -> & LD & VD). cbn [bind].
      destruct (diagonalize_array_ok (cN A) (cmat A) D ev) as (w & D' & -> & Lw & LD' & HS); auto. { apply by_rows_dmat; auto. }
      cbn [bind]. destruct (keep_import_csr (cN A) D' keep (cM A) s2 Hk LD' P2) as (X & -> & NX & MX & WX & RX & VX). cbn [bind].
      destruct (csr_copy_ok X E s3) as (E' & -> & WE' & DE' & HE'); auto; try congruence.
      - rewrite NX. intros i Hi. specialize (RX i Hi). specialize (HR i Hi). lia.
      - cbn [bind]. exists w, E'. split; [reflexivity|]. split; [exact Lw|]. split; [exact WE'|]. split; [exact DE'|].
        eapply eigensystem_ext; [| |exact HS]; intros i j Hi Hj; [reflexivity|]. rewrite <- VX by auto. unfold cmat. rewrite HE' by (rewrite NX; auto). reflexivity.
    Qed.
    Lemma ell_inverse_ok (keep : F -> bool) (A : ell F) s1 s2 : wf A -> (0 < eM A)%nat -> (eN A <= eM A)%nat -> keeps_nonzero keep ->
      Permutation (map snd s1) (seq 0 (eN A)) -> Permutation (map snd s2) (seq 0 (eN A)) -> (exists Y, inverse_of (eN A) (emat A) Y) ->
      (forall a, by_rows (eN A) (emat A) a -> inv_call invs (eN A) a) ->
      exists B, ell_inverse invs keep A s1 s2 = Ok B /\ wf B /\ EllpackSpec.same_dims A B /\ inverse_of (eN A) (emat A) (emat B).
    Proof.
      intros WA HM HNM Hk P1 P2 HY Hc. unfold ell_inverse. destruct (ell_export_ok row_major A s1 WA P1) as (D & -> & LD & VD). cbn [bind].
      destruct (inverse_array_ok (eN A) (emat A) D) as (D' & -> & LD' & HS); auto. { apply by_rows_dmat; auto. }
      cbn [bind]. destruct (keep_import_ell (eN A) D' keep (eM A) s2 Hk HM LD' P2) as (X & -> & NX & MX & WX & VX).
      { intros i Hi. etransitivity; [apply count_seq|lia]. }
      exists X. split; [reflexivity|]. split; [exact WX|]. split; [split; congruence|]. eapply inverse_ext; [| |exact HS]; intros i j Hi Hj; [reflexivity|]. rewrite VX by auto. reflexivity.
    Qed.
    Lemma csr_inverse_ok (keep : F -> bool) (A : csr F) s1 s2 : cwf A -> keeps_nonzero keep ->
      Permutation (map snd s1) (seq 0 (cN A)) -> Permutation (map snd s2) (seq 0 (cN A)) -> (exists Y, inverse_of (cN A) (cmat A) Y) ->
      (forall a, by_rows (cN A) (cmat A) a -> inv_call invs (cN A) a) ->
      exists B, csr_inverse invs keep A s1 s2 = Ok B /\ cwf B /\ cdims A B /\ inverse_of (cN A) (cmat A) (cmat B).
    Proof.
      intros WA Hk P1 P2 HY Hc. unfold csr_inverse. destruct (csr_export_ok row_major A s1 WA P1) as (D & -> & LD & VD). cbn [bind].
      destruct (inverse_array_ok (cN A) (cmat A) D) as (D' & -> & LD' & HS); auto. { apply by_rows_dmat; auto. }
      cbn [bind]. destruct (keep_import_csr (cN A) D' keep (cM A) s2 Hk LD' P2) as (X & -> & NX & MX & WX & _ & VX).
      exists X. split; [reflexivity|]. split; [exact WX|]. split; [split; congruence|]. eapply inverse_ext; [| |exact HS]; intros i j Hi Hj; [reflexivity|]. rewrite VX by auto. reflexivity.
    Qed.

    Lemma keep_import_eb c N (D : list F) (keep : F -> bool) M d (g : nat -> F) : keeps_nonzero keep -> (M <= N)%nat -> bml_get_block_sizes c N M = Ok d -> sizes_for d N -> (s_nb d <= s_mb d)%nat ->
      length D = (N * N)%nat -> exists A, eb_import c row_major N D keep M g = Ok (Some d, A) /\ ebwf A /\ clean A /\ bN A = N /\ bM A = M /\
        bNB A = s_nb d /\ bMB A = s_mb d /\ bbs A = s_bsize d /\ meq N (ebmx A) (dmat row_major N D).
    Proof.
      intros Hk HM Hd HS Hnb L. destruct (eb_import_ok c row_major N D keep M d g HM Hd HS L) as (A & E & WA & CA & NA & MA & NB & MB & BS & V).
      { intros ib _. etransitivity; [apply count_seq|auto]. }
      exists A. do 8 (split; [assumption|]). intros i j Hi Hj. rewrite V by auto. apply (bcut_exact _ keep N); auto. destruct HS as (_ & _ & -> & ->). reflexivity.
    Qed.
    Lemma eb_diagonalize_ok c (keep : F -> bool) (A : eb F) (ev : list F) (E : eb F) (g : nat -> F) nth_ sched d : ebwf A -> (forall ib, (ib < bNB A)%nat -> (0 < bsz (bbs A) ib)%nat) ->
      (bM A <= bN A)%nat -> bml_get_block_sizes c (bN A) (bM A) = Ok d -> sizes_for d (bN A) -> (s_nb d <= s_mb d)%nat -> keeps_nonzero keep -> length ev = bN A ->
      eb_shape E -> tidy E -> bN E = bN A -> bNB E = s_nb d -> bMB E = s_mb d -> bbs E = s_bsize d -> full_sched (s_nb d) nth_ sched ->
      (forall ib jp jb, (ib < s_nb d)%nat -> (jp < s_mb d)%nat -> (jb < s_nb d)%nat -> slot_fits E ib jp (bsz (s_bsize d) ib * bsz (s_bsize d) jb)) ->
      hermitian conj (bN A) (ebmx A) -> (forall a, by_rows (bN A) (ebmx A) a -> eig_call conj le eigs (bN A) a) ->
      exists w E', eb_diagonalize eigs c keep A ev E g sched = Ok (Some d, w, E') /\ length w = bN A /\ ebwf E' /\ EllblockSpec.same_dims E E' /\
        eigensystem conj le (bN A) (mtrans (ebmx A)) w (ebmx E').
    Proof.
      intros WA HP HM Hd HSz Hnb Hk Lev HE TE EN ENB EMB EBS HF Hfit HH Hc. unfold eb_diagonalize. destruct (eb_export_ok A row_major WA HP) as (D & -> & LD & VD). cbn [bind].
      destruct (diagonalize_array_ok (bN A) (ebmx A) D ev) as (w & D' & -> & Lw & LD' & HS); auto. { apply by_rows_dmat; auto. }
      cbn [bind]. destruct (keep_import_eb c (bN A) D' keep (bM A) d g Hk HM Hd HSz Hnb LD') as (X & -> & WX & CX & NX & MX & XNB & XMB & XBS & VX). cbn [bind].
      destruct (eb_copy_ok X E g nth_ sched) as (E' & -> & WE' & TE' & DE' & VE'); auto; try congruence.
      - split; [congruence|split; congruence].
      - intros ib jp Hib Hjp. rewrite XBS. apply Hfit; try congruence.
        + pose proof (ebwf_nnz X ib WX Hib). lia.
        + rewrite <- XNB. apply (ebwf_slot X ib jp WX Hib Hjp).
      - cbn [bind]. exists w, E'. split; [reflexivity|]. split; [exact Lw|]. split; [exact WE'|]. split; [exact DE'|].
        eapply eigensystem_ext; [| |exact HS]; intros i j Hi Hj; [reflexivity|]. rewrite <- VX by auto. symmetry. apply VE'; rewrite NX; auto.
    Qed.
    Lemma eb_inverse_ok c (keep : F -> bool) (A : eb F) (g : nat -> F) d : ebwf A -> (forall ib, (ib < bNB A)%nat -> (0 < bsz (bbs A) ib)%nat) ->
      (bM A <= bN A)%nat -> bml_get_block_sizes c (bN A) (bM A) = Ok d -> sizes_for d (bN A) -> (s_nb d <= s_mb d)%nat -> keeps_nonzero keep ->
      (exists Y, inverse_of (bN A) (ebmx A) Y) -> (forall a, by_rows (bN A) (ebmx A) a -> inv_call invs (bN A) a) ->
      exists B, eb_inverse invs c keep A g = Ok (Some d, B) /\ ebwf B /\ bN B = bN A /\ bM B = bM A /\ bbs B = s_bsize d /\ inverse_of (bN A) (ebmx A) (ebmx B).
    Proof.
      intros WA HP HM Hd HSz Hnb Hk HY Hc. unfold eb_inverse. destruct (eb_export_ok A row_major WA HP) as (D & -> & LD & VD). cbn [bind].
      destruct (inverse_array_ok (bN A) (ebmx A) D) as (D' & -> & LD' & HS); auto. { apply by_rows_dmat; auto. }
      cbn [bind]. destruct (keep_import_eb c (bN A) D' keep (bM A) d g Hk HM Hd HSz Hnb LD') as (X & -> & WX & CX & NX & MX & XNB & XMB & XBS & VX).
      exists X. split; [reflexivity|]. split; [exact WX|]. split; [exact NX|]. split; [exact MX|]. split; [exact XBS|].
      eapply inverse_ext; [| |exact HS]; intros i j Hi Hj; [reflexivity|]. rewrite VX by auto. reflexivity.
    Qed.
  End Calls.

  (** ** Symmetric matrices of real numbers, and Hermitian ones *)
  Lemma symmetric_trans N (X : mat F) : hermitian (fun x => x) N X -> meq N (mtrans X) X.
  Proof. intros H i j Hi Hj. unfold mtrans. rewrite (H j i) by auto. reflexivity. Qed.
  Lemma eigensystem_symmetric le N (X : mat F) w V : hermitian (fun x => x) N X -> eigensystem (fun x => x) le N (mtrans X) w V -> eigensystem (fun x => x) le N X w V.
  Proof. intros H. apply eigensystem_ext; [apply symmetric_trans, H|]. intros i j _ _. reflexivity. Qed.

  Lemma conj_bigsum conj n (f : nat -> F) : conj_morphism conj -> conj (bigsum n f) = bigsum n (fun i => conj (f i)).
  Proof. intros (C0 & _ & CA & _). induction n as [|n IH]; cbn [bigsum]; auto. rewrite CA, IH. reflexivity. Qed.
  (** the conjugates of the eigenvectors of the transpose are those of the matrix *)
  Lemma eigensystem_conj conj le N (X : mat F) w V : conj_morphism conj -> hermitian conj N X -> eigensystem conj le N (mtrans X) w V ->
    eigensystem conj le N X w (mconj conj V).
  Proof.
    intros HC HH (H1 & H2 & H3 & H4). pose proof HC as (C0 & C1 & CA & CM & CI). split; [|split; [|split; auto]].
    - intros i j Hi Hj. transitivity (conj (mmul N (mtrans X) V i j)).
      + unfold mmul. rewrite conj_bigsum by auto. apply bigsum_ext. intros k Hk. rewrite CM. unfold mtrans, mconj. rewrite (HH i k) by auto. reflexivity.
      + rewrite H1 by auto. unfold mmul. rewrite conj_bigsum by auto. apply bigsum_ext. intros k Hk. rewrite CM. unfold mconj, mdiag. destruct (Nat.eqb k j); [rewrite H3 by auto|rewrite C0]; reflexivity.
    - destruct H2 as [H2 H2']. split; intros i j Hi Hj.
      + transitivity (conj (mmul N V (madj conj V) i j)).
        * unfold mmul. rewrite conj_bigsum by auto. apply bigsum_ext. intros k Hk. rewrite CM. reflexivity.
        * rewrite H2 by auto. unfold mid. destruct (Nat.eqb i j); auto.
      + transitivity (conj (mmul N (madj conj V) V i j)).
        * unfold mmul. rewrite conj_bigsum by auto. apply bigsum_ext. intros k Hk. rewrite CM. reflexivity.
        * rewrite H2' by auto. unfold mid. destruct (Nat.eqb i j); auto.
  Qed.
  (** a matrix that has the eigensystem of its transpose is symmetric *)
  Lemma eigensystem_both conj le N (X : mat F) w V : eigensystem conj le N (mtrans X) w V -> eigensystem conj le N X w V -> meq N X (mtrans X).
  Proof.
    intros (H1 & [HU _] & _) (H1' & _) i j Hi Hj.
    assert (HX : forall Y : mat F, Y i j = bigsum N (fun k => mmul N Y V i k * madj conj V k j)).
    { intros Y. transitivity (bigsum N (fun l => Y i l * mid l j)).
      - rewrite (bigsum_single _ j) by (auto; intros l Hl Hne; unfold mid; replace (Nat.eqb l j) with false by (symmetry; apply Nat.eqb_neq; auto); ring).
        unfold mid. rewrite Nat.eqb_refl. ring.
      - transitivity (bigsum N (fun l => bigsum N (fun k => Y i l * (V l k * madj conj V k j)))).
        + apply bigsum_ext. intros l Hl. rewrite <- HU by auto. unfold mmul. rewrite bigsum_mul_l. reflexivity.
        + rewrite bigsum_swap. apply bigsum_ext. intros k Hk. unfold mmul. rewrite <- bigsum_mul_r. apply bigsum_ext. intros; ring. }
    rewrite (HX X), (HX (mtrans X)). apply bigsum_ext. intros k Hk. rewrite H1, H1' by auto. reflexivity.
  Qed.

  Lemma id_inv : forall x : F, (fun x : F => x) ((fun x : F => x) x) = x.
  Proof. reflexivity. Qed.
  Section Final.
    Variable le : F -> F -> Prop.
    Variable eigs : nat -> list F -> res (list F * list F).

    Lemma dense_diagonalize_real (A : dense) (ev : list F) (E : dense) : dwf A -> dwf E -> dN E = dN A -> length ev = dN A -> hermitian (fun x => x) (dN A) (denm A) ->
      (forall a, by_rows (dN A) (denm A) a -> eig_call (fun x => x) le eigs (dN A) a) ->
      exists w E', dense_diagonalize eigs A ev E = Ok (w, E') /\ length w = dN A /\ dwf E' /\ dN E' = dN A /\
        eigensystem (fun x => x) le (dN A) (denm A) w (denm E').
    Proof.
      intros. destruct (dense_diagonalize_trans (fun x => x) le eigs id_inv A ev E) as (w & E' & HR); auto. exists w, E'. destruct HR as (HR1 & HR2 & HR3 & HR4 & HR). do 4 (split; [assumption|]). apply eigensystem_symmetric; auto.
    Qed.
    Lemma dense_diagonalize_complex conj (A : dense) (ev : list F) (E : dense) : conj_morphism conj -> dwf A -> dwf E -> dN E = dN A -> length ev = dN A -> hermitian conj (dN A) (denm A) ->
      (forall a, by_rows (dN A) (denm A) a -> eig_call conj le eigs (dN A) a) ->
      exists w E', dense_diagonalize eigs A ev E = Ok (w, E') /\ length w = dN A /\ dwf E' /\ dN E' = dN A /\
        eigensystem conj le (dN A) (denm A) w (mconj conj (denm E')).
    Proof.
      intros HC; intros. assert (CI : forall x, conj (conj x) = x) by apply HC. destruct (dense_diagonalize_trans conj le eigs CI A ev E) as (w & E' & HR); auto. exists w, E'. destruct HR as (HR1 & HR2 & HR3 & HR4 & HR). do 4 (split; [assumption|]). apply eigensystem_conj; auto.
    Qed.
    Lemma dense_diagonalize_wrong conj (A : dense) (ev : list F) (E : dense) : conj_morphism conj -> dwf A -> dwf E -> dN E = dN A -> length ev = dN A -> hermitian conj (dN A) (denm A) ->
      (forall a, by_rows (dN A) (denm A) a -> eig_call conj le eigs (dN A) a) ->
      (exists i j, (i < dN A)%nat /\ (j < dN A)%nat /\ denm A i j <> denm A j i) ->
      exists w E', dense_diagonalize eigs A ev E = Ok (w, E') /\ ~ eigensystem conj le (dN A) (denm A) w (denm E').
    Proof.
      intros HC; intros. match goal with H : exists i j, _ |- _ => destruct H as (i0 & j0 & Hi0 & Hj0 & Hne) end.
      assert (CI : forall x, conj (conj x) = x) by apply HC. destruct (dense_diagonalize_trans conj le eigs CI A ev E) as (w & E' & HE0 & HR); auto. exists w, E'. split; [exact HE0|]. destruct HR as (_ & _ & _ & HR).
      intros HN. apply Hne. apply (eigensystem_both _ _ _ _ _ _ HR HN); auto.
    Qed.

    Lemma ell_diagonalize_real (keep : F -> bool) (A : ell F) (ev : list F) (E : ell F) s1 s2 : wf A -> wf E -> EllpackSpec.same_dims A E -> (0 < eM A)%nat -> (eN A <= eM A)%nat ->
      length ev = eN A -> keeps_nonzero keep -> Permutation (map snd s1) (seq 0 (eN A)) -> Permutation (map snd s2) (seq 0 (eN A)) ->
      hermitian (fun x => x) (eN A) (emat A) -> (forall a, by_rows (eN A) (emat A) a -> eig_call (fun x => x) le eigs (eN A) a) ->
      exists w E', ell_diagonalize eigs keep A ev E s1 s2 = Ok (w, E') /\ length w = eN A /\ wf E' /\ EllpackSpec.same_dims A E' /\
        eigensystem (fun x => x) le (eN A) (emat A) w (emat E').
    Proof.
      intros. destruct (ell_diagonalize_ok (fun x => x) le eigs id_inv keep A ev E s1 s2) as (w & E' & HR); auto. exists w, E'. destruct HR as (HR1 & HR2 & HR3 & HR4 & HR). do 4 (split; [assumption|]). apply eigensystem_symmetric; auto.
    Qed.
    Lemma ell_diagonalize_complex conj (keep : F -> bool) (A : ell F) (ev : list F) (E : ell F) s1 s2 : conj_morphism conj -> wf A -> wf E -> EllpackSpec.same_dims A E -> (0 < eM A)%nat -> (eN A <= eM A)%nat ->
      length ev = eN A -> keeps_nonzero keep -> Permutation (map snd s1) (seq 0 (eN A)) -> Permutation (map snd s2) (seq 0 (eN A)) ->
      hermitian conj (eN A) (emat A) -> (forall a, by_rows (eN A) (emat A) a -> eig_call conj le eigs (eN A) a) ->
      exists w E', ell_diagonalize eigs keep A ev E s1 s2 = Ok (w, E') /\ length w = eN A /\ wf E' /\ EllpackSpec.same_dims A E' /\
        eigensystem conj le (eN A) (emat A) w (mconj conj (emat E')).
    Proof.
      intros HC; intros. assert (CI : forall x, conj (conj x) = x) by apply HC. destruct (ell_diagonalize_ok conj le eigs CI keep A ev E s1 s2) as (w & E' & HR); auto. exists w, E'. destruct HR as (HR1 & HR2 & HR3 & HR4 & HR). do 4 (split; [assumption|]). apply eigensystem_conj; auto.
    Qed.
    Lemma ell_diagonalize_wrong conj (keep : F -> bool) (A : ell F) (ev : list F) (E : ell F) s1 s2 : conj_morphism conj -> wf A -> wf E -> EllpackSpec.same_dims A E -> (0 < eM A)%nat -> (eN A <= eM A)%nat ->
      length ev = eN A -> keeps_nonzero keep -> Permutation (map snd s1) (seq 0 (eN A)) -> Permutation (map snd s2) (seq 0 (eN A)) ->
      hermitian conj (eN A) (emat A) -> (forall a, by_rows (eN A) (emat A) a -> eig_call conj le eigs (eN A) a) ->
      (exists i j, (i < eN A)%nat /\ (j < eN A)%nat /\ emat A i j <> emat A j i) ->
      exists w E', ell_diagonalize eigs keep A ev E s1 s2 = Ok (w, E') /\ ~ eigensystem conj le (eN A) (emat A) w (emat E').
    Proof.
      intros HC; intros. match goal with H : exists i j, _ |- _ => destruct H as (i0 & j0 & Hi0 & Hj0 & Hne) end.
      assert (CI : forall x, conj (conj x) = x) by apply HC. destruct (ell_diagonalize_ok conj le eigs CI keep A ev E s1 s2) as (w & E' & HE0 & HR); auto. exists w, E'. split; [exact HE0|]. destruct HR as (_ & _ & _ & HR).
      intros HN. apply Hne. apply (eigensystem_both _ _ _ _ _ _ HR HN); auto.
    Qed.

    Lemma csr_diagonalize_real (keep : F -> bool) (A : csr F) (ev : list F) (E : csr F) s1 s2 s3 : cwf A -> cwf E -> cN E = cN A -> (forall i, (i < cN A)%nat -> (cN A <= calloc E i)%nat) ->
      length ev = cN A -> keeps_nonzero keep -> Permutation (map snd s1) (seq 0 (cN A)) -> Permutation (map snd s2) (seq 0 (cN A)) -> Permutation (map snd s3) (seq 0 (cN A)) ->
      hermitian (fun x => x) (cN A) (cmat A) -> (forall a, by_rows (cN A) (cmat A) a -> eig_call (fun x => x) le eigs (cN A) a) ->
      exists w E', csr_diagonalize eigs keep A ev E s1 s2 s3 = Ok (w, E') /\ length w = cN A /\ cwf E' /\ cdims E E' /\
        eigensystem (fun x => x) le (cN A) (cmat A) w (cmat E').
    Proof.
      intros. destruct (csr_diagonalize_ok (fun x => x) le eigs id_inv keep A ev E s1 s2 s3) as (w & E' & HR); auto. exists w, E'. destruct HR as (HR1 & HR2 & HR3 & HR4 & HR). do 4 (split; [assumption|]). apply eigensystem_symmetric; auto.
    Qed.
    Lemma csr_diagonalize_complex conj (keep : F -> bool) (A : csr F) (ev : list F) (E : csr F) s1 s2 s3 : conj_morphism conj -> cwf A -> cwf E -> cN E = cN A -> (forall i, (i < cN A)%nat -> (cN A <= calloc E i)%nat) ->
      length ev = cN A -> keeps_nonzero keep -> Permutation (map snd s1) (seq 0 (cN A)) -> Permutation (map snd s2) (seq 0 (cN A)) -> Permutation (map snd s3) (seq 0 (cN A)) ->
      hermitian conj (cN A) (cmat A) -> (forall a, by_rows (cN A) (cmat A) a -> eig_call conj le eigs (cN A) a) ->
      exists w E', csr_diagonalize eigs keep A ev E s1 s2 s3 = Ok (w, E') /\ length w = cN A /\ cwf E' /\ cdims E E' /\
        eigensystem conj le (cN A) (cmat A) w (mconj conj (cmat E')).
    Proof.
      intros HC; intros. assert (CI : forall x, conj (conj x) = x) by apply HC. destruct (csr_diagonalize_ok conj le eigs CI keep A ev E s1 s2 s3) as (w & E' & HR); auto. exists w, E'. destruct HR as (HR1 & HR2 & HR3 & HR4 & HR). do 4 (split; [assumption|]). apply eigensystem_conj; auto.
    Qed.
    Lemma csr_diagonalize_wrong conj (keep : F -> bool) (A : csr F) (ev : list F) (E : csr F) s1 s2 s3 : conj_morphism conj -> cwf A -> cwf E -> cN E = cN A -> (forall i, (i < cN A)%nat -> (cN A <= calloc E i)%nat) ->
      length ev = cN A -> keeps_nonzero keep -> Permutation (map snd s1) (seq 0 (cN A)) -> Permutation (map snd s2) (seq 0 (cN A)) -> Permutation (map snd s3) (seq 0 (cN A)) ->
      hermitian conj (cN A) (cmat A) -> (forall a, by_rows (cN A) (cmat A) a -> eig_call conj le eigs (cN A) a) ->
      (exists i j, (i < cN A)%nat /\ (j < cN A)%nat /\ cmat A i j <> cmat A j i) ->
      exists w E', csr_diagonalize eigs keep A ev E s1 s2 s3 = Ok (w, E') /\ ~ eigensystem conj le (cN A) (cmat A) w (cmat E').
    Proof.
      intros HC; intros. match goal with H : exists i j, _ |- _ => destruct H as (i0 & j0 & Hi0 & Hj0 & Hne) end.
      assert (CI : forall x, conj (conj x) = x) by apply HC. destruct (csr_diagonalize_ok conj le eigs CI keep A ev E s1 s2 s3) as (w & E' & HE0 & HR); auto. exists w, E'. split; [exact HE0|]. destruct HR as (_ & _ & _ & HR).
      intros HN. apply Hne. apply (eigensystem_both _ _ _ _ _ _ HR HN); auto.
    Qed.

    Lemma eb_diagonalize_real c (keep : F -> bool) (A : eb F) (ev : list F) (E : eb F) (g : nat -> F) nth_ sched d : ebwf A -> (forall ib, (ib < bNB A)%nat -> (0 < bsz (bbs A) ib)%nat) ->
      (bM A <= bN A)%nat -> bml_get_block_sizes c (bN A) (bM A) = Ok d -> sizes_for d (bN A) -> (s_nb d <= s_mb d)%nat -> keeps_nonzero keep -> length ev = bN A ->
      eb_shape E -> tidy E -> bN E = bN A -> bNB E = s_nb d -> bMB E = s_mb d -> bbs E = s_bsize d -> full_sched (s_nb d) nth_ sched ->
      (forall ib jp jb, (ib < s_nb d)%nat -> (jp < s_mb d)%nat -> (jb < s_nb d)%nat -> slot_fits E ib jp (bsz (s_bsize d) ib * bsz (s_bsize d) jb)) ->
      hermitian (fun x => x) (bN A) (ebmx A) -> (forall a, by_rows (bN A) (ebmx A) a -> eig_call (fun x => x) le eigs (bN A) a) ->
      exists w E', eb_diagonalize eigs c keep A ev E g sched = Ok (Some d, w, E') /\ length w = bN A /\ ebwf E' /\ EllblockSpec.same_dims E E' /\
        eigensystem (fun x => x) le (bN A) (ebmx A) w (ebmx E').
    Proof.
      intros. destruct (eb_diagonalize_ok (fun x => x) le eigs id_inv c keep A ev E g nth_ sched d) as (w & E' & HR); auto. exists w, E'. destruct HR as (HR1 & HR2 & HR3 & HR4 & HR). do 4 (split; [assumption|]). apply eigensystem_symmetric; auto.
    Qed.
    Lemma eb_diagonalize_complex conj c (keep : F -> bool) (A : eb F) (ev : list F) (E : eb F) (g : nat -> F) nth_ sched d : conj_morphism conj -> ebwf A -> (forall ib, (ib < bNB A)%nat -> (0 < bsz (bbs A) ib)%nat) ->
      (bM A <= bN A)%nat -> bml_get_block_sizes c (bN A) (bM A) = Ok d -> sizes_for d (bN A) -> (s_nb d <= s_mb d)%nat -> keeps_nonzero keep -> length ev = bN A ->
      eb_shape E -> tidy E -> bN E = bN A -> bNB E = s_nb d -> bMB E = s_mb d -> bbs E = s_bsize d -> full_sched (s_nb d) nth_ sched ->
      (forall ib jp jb, (ib < s_nb d)%nat -> (jp < s_mb d)%nat -> (jb < s_nb d)%nat -> slot_fits E ib jp (bsz (s_bsize d) ib * bsz (s_bsize d) jb)) ->
      hermitian conj (bN A) (ebmx A) -> (forall a, by_rows (bN A) (ebmx A) a -> eig_call conj le eigs (bN A) a) ->
      exists w E', eb_diagonalize eigs c keep A ev E g sched = Ok (Some d, w, E') /\ length w = bN A /\ ebwf E' /\ EllblockSpec.same_dims E E' /\
        eigensystem conj le (bN A) (ebmx A) w (mconj conj (ebmx E')).
    Proof.
      intros HC; intros. assert (CI : forall x, conj (conj x) = x) by apply HC. destruct (eb_diagonalize_ok conj le eigs CI c keep A ev E g nth_ sched d) as (w & E' & HR); auto. exists w, E'. destruct HR as (HR1 & HR2 & HR3 & HR4 & HR). do 4 (split; [assumption|]). apply eigensystem_conj; auto.
    Qed.
    Lemma eb_diagonalize_wrong conj c (keep : F -> bool) (A : eb F) (ev : list F) (E : eb F) (g : nat -> F) nth_ sched d : conj_morphism conj -> ebwf A -> (forall ib, (ib < bNB A)%nat -> (0 < bsz (bbs A) ib)%nat) ->
      (bM A <= bN A)%nat -> bml_get_block_sizes c (bN A) (bM A) = Ok d -> sizes_for d (bN A) -> (s_nb d <= s_mb d)%nat -> keeps_nonzero keep -> length ev = bN A ->
      eb_shape E -> tidy E -> bN E = bN A -> bNB E = s_nb d -> bMB E = s_mb d -> bbs E = s_bsize d -> full_sched (s_nb d) nth_ sched ->
      (forall ib jp jb, (ib < s_nb d)%nat -> (jp < s_mb d)%nat -> (jb < s_nb d)%nat -> slot_fits E ib jp (bsz (s_bsize d) ib * bsz (s_bsize d) jb)) ->
      hermitian conj (bN A) (ebmx A) -> (forall a, by_rows (bN A) (ebmx A) a -> eig_call conj le eigs (bN A) a) ->
      (exists i j, (i < bN A)%nat /\ (j < bN A)%nat /\ ebmx A i j <> ebmx A j i) ->
      exists w E', eb_diagonalize eigs c keep A ev E g sched = Ok (Some d, w, E') /\ ~ eigensystem conj le (bN A) (ebmx A) w (ebmx E').
    Proof.
      intros HC; intros. match goal with H : exists i j, _ |- _ => destruct H as (i0 & j0 & Hi0 & Hj0 & Hne) end.
      assert (CI : forall x, conj (conj x) = x) by apply HC. destruct (eb_diagonalize_ok conj le eigs CI c keep A ev E g nth_ sched d) as (w & E' & HE0 & HR); auto. exists w, E'. split; [exact HE0|]. destruct HR as (_ & _ & _ & HR).
      intros HN. apply Hne. apply (eigensystem_both _ _ _ _ _ _ HR HN); auto.
    Qed.
  End Final.
End LapackFacts.
