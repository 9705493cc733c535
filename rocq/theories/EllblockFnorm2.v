(** bml_fnorm2 of the block format, where it does not fail; bml_noinit_matrix. *)
From Verif Require Import Base BaseFacts Spec SpecFacts EllpackModel EllpackSpec DomainFacts EllblockModel EllblockSpec EllblockFacts EllblockHeap EllblockRead EllblockBuild EllblockMake EllblockHist.

Section Fnorm2.
  Context {F : scalar}.
  Local Notation eb := (eb F).
  Implicit Types A B : eb.
  Add Ring Kring2 : (k_ring F).

  Lemma row_sum_cols A ib (g : nat -> F) : brow_ok A ib -> (forall c, c < bNB A -> ~ In c (bcols A ib) -> g c = k0) ->
    bigsum (bnz A ib) (fun jp => g (scol A ib jp)) = bigsum (bNB A) g.
  Proof.
    intros HR H0. pose proof HR as [H1 H2 H3].
    rewrite (bigsum_ext (bNB A) _ (fun jb => bigsum (bnz A ib) (fun jp => if scol A ib jp =? jb then g jb else k0))).
    - rewrite bigsum_swap. apply bigsum_ext. intros jp Hj. rewrite (bigsum_single _ (scol A ib jp)).
      + rewrite Nat.eqb_refl. reflexivity.
      + apply H2; auto.
      + intros jb _ Hne. destruct (Nat.eqb_spec (scol A ib jp) jb); auto. congruence.
    - intros jb Hjb. destruct (slot_dec A ib jb) as [(jp & Hj & E)|Hn].
      + rewrite (bigsum_single _ jp); auto.
        * rewrite E, Nat.eqb_refl. reflexivity.
        * intros jq Hq Hne. destruct (Nat.eqb_spec (scol A ib jq) jb); auto. destruct Hne. apply (scol_inj A ib); auto. congruence.
      + rewrite bigsum_zero; [apply H0; auto|].
        * intros H. unfold bcols in H. apply in_map_iff in H as (jp & E & H). apply in_seq in H. apply (Hn jp); auto; lia.
        * intros jp Hj. specialize (Hn jp Hj). destruct (Nat.eqb_spec (scol A ib jp) jb); [congruence|reflexivity].
  Qed.

  (** the search of lines 328-342: the block of B in column jb, or the block of zeros *)
  Lemma find_block A B zero ib jb r : eb_shape A -> ebwf B -> eb_dims A B -> bMB A = bMB B -> ib < bNB A -> jb < bNB A -> 0 < bnz B ib ->
    (forall k, nth k zero k0 = (k0 : F)) -> (forall c, c < bNB A -> bsz (bbs A) ib * bsz (bbs A) c <= length zero) ->
    exists y b, for_n (bnz B ib) (fun kp '(r, done) =>
          if (done : bool) then Ok (r, true) else
          c <- rd (bidx B) (ROWMAJOR ib kp (bNB A) (bMB A)) ;;
          if (jb =? c)%nat then y <- b_blk B (ROWMAJOR ib kp (bNB A) (bMB A)) ;; Ok (Block y, true) else Ok (Block zero, false)) (r, false) = Ok (Block y, b) /\
      bsz (bbs A) ib * bsz (bbs A) jb <= length y /\ forall k, nth k y k0 = bel B ib jb k.
  Proof.
    intros SA WB (D1 & D2 & D3) DM Hi Hj Hz Z1 Z2. pose proof WB as (SB & OB & RB).
    assert (HiB : ib < bNB B) by congruence.
    set (P := fun n (s : rval * bool) => if snd s then exists y, fst s = Block y /\ bsz (bbs A) ib * bsz (bbs A) jb <= length y /\ forall k, nth k y k0 = bel B ib jb k
      else (forall jp, jp < n -> scol B ib jp <> jb) /\ (0 < n -> fst s = Block zero)).
    match goal with |- exists y b, ?t = _ /\ _ => assert (H : wp t (P (bnz B ib))) end.
    { apply (for_n_inv P).
      - split; intros; lia.
      - intros kp [r' d] Hkp HP. unfold P in HP. cbn [fst snd] in HP. destruct d; [exact HP|]. destruct HP as [HP1 HP2].
        destruct (ebwf_slot B ib kp) as (Hm & Hc & Hx & Hl); auto. apply wp_bind.
        change (ROWMAJOR ib kp (bNB A) (bMB A)) with (ROWMAJOR ib kp (bNB B) (bMB A)). rewrite DM. change (ROWMAJOR ib kp (bNB B) (bMB B)) with (b_at B ib kp).
        rewrite rd_idx_ok by auto. cbn [wpq]. destruct (Nat.eqb_spec jb (scol B ib kp)) as [E|E].
        + apply wp_bind. rewrite (b_blk_ok B ib kp (sblk B ib kp)) by auto. cbn [wpq]. unfold P. cbn [fst snd]. exists (sblk B ib kp). split; auto.
          rewrite <- E, <- D3 in Hl. split; auto. intros k. symmetry. apply bel_hit; auto.
        + cbn [wpq]. unfold P. cbn [fst snd]. split; auto. intros jq Hq. destruct (Nat.eq_dec jq kp) as [->|]; auto. apply HP1. lia. }
    apply wp_ok in H as ([r' d] & E & H). unfold P in H. cbn [fst snd] in H. destruct d.
    - destruct H as (y & -> & Hl & Hv). exists y, true. auto.
    - destruct H as (H1 & H2). rewrite (H2 Hz) in E. exists zero, false. split; auto. split; [apply Z2; auto|].
      intros k. rewrite Z1. symmetry. apply bel_miss. auto.
  Qed.

  (** the search of lines 359-372 finds a block of A *)
  Lemma find_block2 A ib c r : ebwf A -> ib < bNB A -> In c (bcols A ib) ->
    exists y b, for_n (bnz A ib) (fun kp '(r, done) =>
          if (done : bool) then Ok (r, true) else
          a <- rd (bidx A) (ROWMAJOR ib kp (bNB A) (bMB A)) ;;
          if (a =? c)%nat then x <- b_blk A (ROWMAJOR ib kp (bNB A) (bMB A)) ;; Ok (Block x, true) else Ok (Null, false)) (r, false) = Ok (Block y, b).
  Proof.
    intros WA Hi Hin. pose proof WA as (SA & OA & RA). unfold bcols in Hin. apply in_map_iff in Hin as (jp0 & E0 & Hj0). apply in_seq in Hj0.
    set (P := fun n (s : rval (F:=F) * bool) => if snd s then exists y, fst s = Block y else forall jp, jp < n -> scol A ib jp <> c).
    match goal with |- exists y b, ?t = _ => assert (H : wp t (P (bnz A ib))) end.
    { apply (for_n_inv P).
      - intros jp Hjp. lia.
      - intros kp [r' d] Hkp HP. unfold P in HP. cbn [fst snd] in HP. destruct d; [exact HP|].
        destruct (ebwf_slot A ib kp) as (Hm & Hc & Hx & Hl); auto. apply wp_bind. change (ROWMAJOR ib kp (bNB A) (bMB A)) with (b_at A ib kp).
        rewrite rd_idx_ok by auto. cbn [wpq]. destruct (Nat.eqb_spec (scol A ib kp) c) as [E|E].
        + apply wp_bind. rewrite (b_blk_ok A ib kp (sblk A ib kp)) by auto. cbn [wpq]. unfold P. cbn [fst snd]. eauto.
        + cbn [wpq]. unfold P. cbn [fst snd]. intros jq Hq. destruct (Nat.eq_dec jq kp) as [->|]; auto. apply HP. lia. }
    apply wp_ok in H as ([r' d] & E & H). unfold P in H. cbn [fst snd] in H. destruct d.
    - destruct H as (y & ->). eauto.
    - exfalso. apply (H jp0); auto. lia.
  Qed.

  (** where every block of B has a counterpart in A, and no block row is empty in B alone *)
  Theorem eb_fnorm2_ok A B : ebwf A -> ebwf B -> eb_dims A B -> bMB A = bMB B ->
    (forall ib, ib < bNB A -> incl (bcols B ib) (bcols A ib)) ->
    (forall ib, ib < bNB A -> bcols B ib = [] -> bcols A ib = []) ->
    eb_fnorm2_sq A B = Ok (msum (bN A) (fun i j => kmul (ksub (ebmx A i j) (ebmx B i j)) (ksub (ebmx A i j) (ebmx B i j)))).
  Proof.
    intros WA WB D DM HI HE. pose proof WA as (SA & OA & RA). pose proof WB as (SB & OB & RB). pose proof D as (D1 & D2 & D3).
    unfold eb_fnorm2_sq. destruct (maxbsize_ok (bNB A) (bbs A)) as (m & -> & Hm & _); [rewrite (sh_bs A SA); auto|]. cbn [bind].
    set (zero := repeat k0 (m * m)).
    set (g := fun ib jb => bigsum (bsz (bbs A) ib * bsz (bbs A) jb) (fun k => kmul (ksub (bel A ib jb k) (bel B ib jb k)) (ksub (bel A ib jb k) (bel B ib jb k)))).
    assert (EQ : msum (bN A) (fun i j => kmul (ksub (ebmx A i j) (ebmx B i j)) (ksub (ebmx A i j) (ebmx B i j))) = bigsum (bNB A) (fun ib => bigsum (bNB A) (g ib))).
    { unfold msum. rewrite bigsum_mx by auto. apply bigsum_ext. intros ib Hi. apply bigsum_ext. intros jb Hj. unfold g.
      rewrite <- bigsum_cells. apply bigsum_ext. intros k Hk.
      change (ebmx A (boff (bbs A) ib + k / bsz (bbs A) jb) (boff (bbs A) jb + k mod bsz (bbs A) jb)) with (xb (bbs A) (ebmx A) ib jb k). rewrite ebmx_xb by auto.
      rewrite D3. change (ebmx B (boff (bbs B) ib + k / bsz (bbs B) jb) (boff (bbs B) jb + k mod bsz (bbs B) jb)) with (xb (bbs B) (ebmx B) ib jb k).
      rewrite ebmx_xb; auto; rewrite <- ?D2, <- ?D3; auto. }
    rewrite EQ.
    match goal with |- context [for_n (bNB A) ?body (k0, Unset)] => assert (H : wp (for_n (bNB A) body (k0, Unset)) (fun s => fst s = bigsum (bNB A) (fun ib => bigsum (bNB A) (g ib)))) end.
    2:{ apply wp_ok in H as ([s r] & E & Hs). rewrite E. cbn [bind]. cbn [fst] in Hs. rewrite Hs. reflexivity. }
    apply (for_n_inv (fun n (s : F * rval) => fst s = bigsum n (fun ib => bigsum (bNB A) (g ib)))); [reflexivity|].
    intros ib [s0 r0] Hi Hs. cbn [fst] in Hs. assert (HiB : ib < bNB B) by congruence.
    rewrite b_bs_ok by auto. cbn [bind]. rewrite b_nnz_ok by auto. cbn [bind]. rewrite b_nnz_ok by auto. cbn [bind].
    apply wp_bind.
    apply wp_mono with (P := fun s => fst s = kadd s0 (bigsum (bNB A) (g ib))).
    - rewrite <- (row_sum_cols A ib (g ib)); auto.
      2:{ intros c Hc Hn. apply bigsum_zero. intros k Hk.
          rewrite !bel_miss; [ring|..]; intros jp Hjp E; apply Hn; [apply HI; auto|]; unfold bcols; apply in_map_iff; exists jp; (split; [auto|apply in_seq; lia]). }
      apply (for_n_inv (fun n (s : F * rval) => fst s = kadd s0 (bigsum n (fun jp => g ib (scol A ib jp))))).
      + cbn [fst bigsum]. ring.
      + intros jp [s r] Hjp Hs'. cbn [fst] in Hs'. destruct (ebwf_slot A ib jp) as (Hmm & Hc & Hx & Hl); auto.
        change (ROWMAJOR ib jp (bNB A) (bMB A)) with (b_at A ib jp). rewrite rd_idx_ok by auto. cbn [bind]. rewrite b_bs_ok by auto. cbn [bind].
        set (jb := scol A ib jp) in *.
        assert (Hz : 0 < bnz B ib).
        { destruct (bnz B ib) eqn:Q; [|lia]. assert (QA : bcols A ib = []) by (apply HE; auto; unfold bcols; rewrite Q; auto).
          unfold bcols in QA. apply map_eq_nil in QA. destruct (bnz A ib); [lia|discriminate QA]. }
        destruct (find_block A B zero ib jb r) as (y & b & E & Ly & Vy); auto.
        * intros k. apply nth_repeat_any.
        * intros c Hcc. unfold zero. rewrite repeat_length. apply Nat.mul_le_mono; apply Hm; auto.
        * rewrite E. cbn [bind]. rewrite (b_blk_ok A ib jp (sblk A ib jp)) by auto. cbn [bind]. rewrite for_2_flat.
          rewrite (sum_loop _ _ (fun k => kmul (ksub (bel A ib jb k) (bel B ib jb k)) (ksub (bel A ib jb k) (bel B ib jb k)))).
          -- cbn [bind wpq fst bigsum]. rewrite Hs'. fold (g ib jb). fold jb. ring.
          -- intros k s' Hk. destruct (pos_split _ _ _ Hk) as (P1 & P2 & P3). unfold ROWMAJOR. rewrite <- P3.
             rewrite (rd_ok _ _ k0) by lia. cbn [bind]. rewrite (rd_ok _ _ k0) by lia. cbn [bind]. rewrite Vy. rewrite (bel_hit A ib jb jp) by auto. reflexivity.
    - intros [s1 r1] Hs1. cbn [fst] in Hs1.
      apply wp_mono with (P := fun s => fst s = s1).
      + apply (for_n_inv (fun _ (s : F * rval) => fst s = s1)); [reflexivity|].
        intros jp [s r] Hjp Hs'. cbn [fst] in Hs'. destruct (ebwf_slot B ib jp) as (Hmm & Hc & Hx & Hl); auto.
        replace (rd (bidx B) (ROWMAJOR ib jp (bNB A) (bMB A))) with (Ok (scol B ib jp)) by (symmetry; rewrite DM; apply (rd_idx_ok B ib jp); auto).
        cbn [bind].
        destruct (find_block2 A ib (scol B ib jp) r) as (y & b & E); auto.
        { apply HI; auto. unfold bcols. apply in_map_iff. exists jp. split; auto. apply in_seq. lia. }
        rewrite E. cbn [bind wpq fst]. auto.
      + intros [s r] Hs'. cbn [fst] in Hs' |- *. cbn [bigsum]. rewrite Hs', Hs1, Hs. reflexivity.
  Qed.

  (** once default sizes are set, bml_noinit_matrix makes a matrix of these sizes, without blocks *)
  Lemma eb_noinit_again d n N M : sizes_for d n ->
    (n < M -> eb_noinit (F:=F) (Some d) N M = Err) /\
    (M <= n -> exists A, eb_noinit (F:=F) (Some d) N M = Ok (Some d, A) /\ zero_matrix d n M A).
  Proof.
    intros (H1 & H2 & H3 & H4). unfold eb_noinit. cbn [bml_get_block_sizes bind]. split; intros HM.
    - unfold block_matrix. destruct (Nat.eqb_spec (s_nb d) 0); [lia|]. destruct (Nat.eqb_spec (s_mb d) 0); [lia|]. cbn [orb].
      rewrite sum_sizes by lia. cbn [bind]. rewrite H4. destruct (Nat.ltb_spec n M); [reflexivity|lia].
    - destruct (block_matrix_ok (F:=F) (Some d) (s_nb d) (s_mb d) M (s_bsize d)) as (A & EA & HF); auto; [lia|cbn; lia|].
      exists A. rewrite EA. split; [reflexivity|]. apply fresh_matrix; auto. rewrite (fr_N _ _ _ _ _ HF). auto.
  Qed.
End Fnorm2.
