(** Operations of the block format that only read. *)
From Verif Require Import Base BaseFacts Spec SpecFacts EllpackModel EllpackSpec DomainFacts EllblockModel EllblockSpec EllblockFacts EllblockHeap.

Section Read.
  Context {F : scalar}.
  Local Notation eb := (eb F).
  Implicit Types A B : eb.
  Add Ring Kring : (k_ring F).

  Lemma bel_hit A ib jb jp k : brow_ok A ib -> jp < bnz A ib -> scol A ib jp = jb -> bel A ib jb k = nth k (sblk A ib jp) k0.
  Proof.
    intros [H1 H2 H3] Hj E. unfold bel. apply elook_in.
    - unfold cols. rewrite map_map. exact H1.
    - apply in_map_iff. exists jp. split; [rewrite E; auto|]. apply in_seq. lia.
  Qed.
  Lemma bel_miss A ib jb k : (forall jp, jp < bnz A ib -> scol A ib jp <> jb) -> bel A ib jb k = k0.
  Proof.
    intros H. unfold bel. apply elook_notin. unfold cols. rewrite map_map. intros Hin. apply in_map_iff in Hin as (jp & E & Hj).
    apply in_seq in Hj. apply (H jp); auto; lia.
  Qed.
  Lemma scol_inj A ib jp jq : brow_ok A ib -> jp < bnz A ib -> jq < bnz A ib -> scol A ib jp = scol A ib jq -> jp = jq.
  Proof.
    intros [H1 _ _] Hp Hq E. unfold bcols in H1.
    rewrite NoDup_nth with (d := 0) in H1. rewrite map_length, seq_length in H1. apply H1; auto. rewrite !nth_map_seq by auto. exact E.
  Qed.
  (** is there a block in column jb *)
  Lemma slot_dec A ib jb : (exists jp, jp < bnz A ib /\ scol A ib jp = jb) \/ (forall jp, jp < bnz A ib -> scol A ib jp <> jb).
  Proof.
    destruct (in_dec Nat.eq_dec jb (bcols A ib)) as [H|H]; unfold bcols in H.
    - apply in_map_iff in H as (jp & E & H). apply in_seq in H. left. exists jp. split; auto; lia.
    - right. intros jp Hj E. apply H. apply in_map_iff. exists jp. split; auto. apply in_seq. lia.
  Qed.

  Lemma bel_zero_cells A ib jb jp k : brow_ok A ib -> jp < bnz A ib -> scol A ib jp = jb -> nth k (sblk A ib jp) k0 = bel A ib jb k.
  Proof. intros. symmetry. apply bel_hit; auto. Qed.

  (** sums over the blocks of a row *)
  Lemma row_sum A ib (h : nat -> (nat -> F) -> F) : brow_ok A ib ->
    (forall c f f', (forall k, f k = f' k) -> h c f = h c f') -> (forall c, h c (fun _ => k0) = k0) ->
    bigsum (bnz A ib) (fun jp => h (scol A ib jp) (fun k => nth k (sblk A ib jp) k0)) = bigsum (bNB A) (fun jb => h jb (bel A ib jb)).
  Proof.
    intros HR He H0. pose proof HR as [H1 H2 H3].
    rewrite (bigsum_ext (bNB A) _ (fun jb => bigsum (bnz A ib) (fun jp => if scol A ib jp =? jb then h jb (fun k => nth k (sblk A ib jp) k0) else k0))).
    - rewrite bigsum_swap. apply bigsum_ext. intros jp Hj.
      rewrite (bigsum_single _ (scol A ib jp)).
      + rewrite Nat.eqb_refl. reflexivity.
      + apply H2; auto.
      + intros jb _ Hne. destruct (Nat.eqb_spec (scol A ib jp) jb); auto. congruence.
    - intros jb Hjb. destruct (slot_dec A ib jb) as [(jp & Hj & E)|Hn].
      + rewrite (bigsum_single _ jp); auto.
        * rewrite E, Nat.eqb_refl. apply He. intros k. apply bel_hit; auto.
        * intros jq Hq Hne. destruct (Nat.eqb_spec (scol A ib jq) jb); auto. destruct Hne. apply (scol_inj A ib); auto. congruence.
      + rewrite bigsum_zero.
        * rewrite (He jb _ (fun _ => k0)); auto. intros k. apply bel_miss; auto.
        * intros jp Hj. specialize (Hn jp Hj). destruct (Nat.eqb_spec (scol A ib jp) jb); auto. congruence.
  Qed.

  Lemma bigsum_mx A (f : nat -> nat -> F) : eb_shape A ->
    bigsum (bN A) (fun i => bigsum (bN A) (fun j => f i j)) =
    bigsum (bNB A) (fun ib => bigsum (bNB A) (fun jb => bigsum (bsz (bbs A) ib) (fun ii => bigsum (bsz (bbs A) jb) (fun jj => f (boff (bbs A) ib + ii) (boff (bbs A) jb + jj))))).
  Proof.
    intros HS. rewrite (shape_N A HS), (sh_bs A HS), bigsum_blocks. apply bigsum_ext. intros ib Hi.
    rewrite bigsum_swap. rewrite bigsum_blocks. apply bigsum_ext. intros jb Hj. rewrite bigsum_swap. reflexivity.
  Qed.
  Lemma bigsum_N A (f : nat -> F) : eb_shape A ->
    bigsum (bN A) f = bigsum (bNB A) (fun ib => bigsum (bsz (bbs A) ib) (fun ii => f (boff (bbs A) ib + ii))).
  Proof. intros HS. rewrite (shape_N A HS), (sh_bs A HS). apply bigsum_blocks. Qed.

  (** ** get_element *)
  Lemma eb_get_element_ok A i j : ebwf A -> i < bN A -> j < bN A -> eb_get_element A i j = Ok (ebmx A i j).
  Proof.
    intros HW Hi Hj. pose proof HW as (HS & HO & HR). unfold eb_get_element.
    destruct (Nat.leb_spec (bN A) i); [lia|]. destruct (Nat.leb_spec (bN A) j); [lia|].
    rewrite (shape_N A HS) in Hi, Hj. rewrite !locate_ok by auto. cbn [bind plus].
    unfold ebmx. destruct (bloc_spec _ _ Hi) as (ib & ii & E1 & Hib & Hii & _), (bloc_spec _ _ Hj) as (jb & jj & E2 & Hjb & Hjj & _).
    rewrite E1, E2. cbn [fst snd]. rewrite (sh_bs A HS) in *.
    rewrite b_for_row_unfold by auto. apply wp_eq. apply wp_bind.
    apply wp_mono with (P := fun r => match r with Some v => v = bel A ib jb (ii * bsz (bbs A) jb + jj) | None => bel A ib jb (ii * bsz (bbs A) jb + jj) = k0 end).
    2:{ intros [v|] E; cbn [wpq]; auto. }
    set (P := fun n r => match r with Some v => v = bel A ib jb (ii * bsz (bbs A) jb + jj) | None => forall jp, jp < n -> scol A ib jp <> jb end).
    apply wp_mono with (P := P (bnz A ib)).
    - apply (for_n_inv P).
      + intros jp; lia.
      + intros jp r Hjp HP. destruct r as [v|]; [exact HP|]. unfold P in HP.
        destruct (ebwf_slot A ib jp) as (Hm & Hc & Hx & Hl); auto.
        destruct (Nat.eqb_spec (scol A ib jp) jb) as [E|E].
        * apply wp_bind. rewrite (b_blk_ok A ib jp (sblk A ib jp)) by auto. cbn [wpq]. apply wp_bind. rewrite b_bs_ok by auto. cbn [wpq].
          apply wp_bind. rewrite b_bs_ok by auto. cbn [wpq]. apply wp_bind.
          assert (ii * bsz (bbs A) jb + jj < length (sblk A ib jp)).
          { pose proof (pos_lt (bsz (bbs A) ib) (bsz (bbs A) jb) ii jj Hii Hjj). rewrite E in Hl. lia. }
          unfold ROWMAJOR. rewrite (rd_ok _ _ k0) by auto. cbn [wpq]. unfold P. symmetry. apply bel_hit; auto.
        * cbn [wpq P]. intros jq Hq. destruct (Nat.eq_dec jq jp) as [->|]; auto. apply HP. lia.
    - intros [v|]; unfold P; auto. intros H'. apply bel_miss; auto.
  Qed.
  Lemma eb_get_element_oob A i j : bN A <= i \/ bN A <= j -> eb_get_element A i j = Err.
  Proof.
    intros H. unfold eb_get_element. destruct (Nat.leb_spec (bN A) i); auto. destruct (Nat.leb_spec (bN A) j); auto. lia.
  Qed.

  (** ** get_row *)
  Lemma eb_get_row_ok A i : ebwf A -> i < bN A ->
    exists r, eb_get_row A i = Ok r /\ length r = bN A /\ forall j, j < bN A -> nth j r k0 = ebmx A i j.
  Proof.
    intros HW Hi. pose proof HW as (HS & HO & HR). apply wp_ok. unfold eb_get_row.
    pose proof (shape_N A HS) as EN. pose proof (sh_bs A HS) as EB. pose proof (sh_nb A HS) as HNB.
    assert (Hi' : i < boff (bbs A) (length (bbs A))) by lia.
    rewrite locate_ok by auto. cbn [bind plus].
    destruct (bloc_spec _ _ Hi') as (ib & ii & E1 & Hib & Hii & Ei). rewrite E1. cbn [fst snd]. rewrite EB in Hib, Hi', EN.
    rewrite offsets_ok by lia. cbn [bind]. rewrite b_for_row_unfold by auto.
    set (bs := bbs A) in *.
    set (P := fun n (r : list F) => length r = bN A /\ forall jb jj, jb < bNB A -> jj < bsz bs jb ->
       ((exists jp, jp < n /\ scol A ib jp = jb) -> nth (boff bs jb + jj) r k0 = bel A ib jb (ii * bsz bs jb + jj)) /\
       ((forall jp, jp < n -> scol A ib jp <> jb) -> nth (boff bs jb + jj) r k0 = k0)).
    apply wp_mono with (P := P (bnz A ib)).
    - apply (for_n_inv P).
      + split; [apply repeat_length|]. intros jb jj _ _. split; [intros (jp & ? & _); lia|]. intros _. apply nth_repeat_any.
      + intros jp r Hjp (HL & HP). destruct (ebwf_slot A ib jp) as (Hm & Hc & Hx & Hl); auto.
        destruct (Nat.ltb_spec (scol A ib jp) (bNB A)); [|lia].
        apply wp_bind. rewrite (b_blk_ok A ib jp (sblk A ib jp)) by auto. cbn [wpq]. apply wp_bind. rewrite b_bs_ok by auto. cbn [wpq].
        apply wp_bind. rewrite b_bs_ok by auto. cbn [wpq]. fold bs in Hl. fold bs. set (jb := scol A ib jp) in *.
        rewrite for_n_ext with (b2 := fun jj row => v <- rd (sblk A ib jp) (ii * bsz bs jb + jj) ;; wr row (boff bs jb + jj) v).
        2:{ intros jj s _. rewrite (rd_ok (map (boff bs) (seq 0 (bNB A))) jb 0) by (rewrite map_length, seq_length; auto).
            rewrite nth_map_seq by auto. reflexivity. }
        assert (Hpos : forall jj, jj < bsz bs jb -> ii * bsz bs jb + jj < length (sblk A ib jp)).
        { intros jj Hjj. pose proof (pos_lt (bsz bs ib) (bsz bs jb) ii jj Hii Hjj). lia. }
        eapply wp_mono.
        { apply (scatter_ok (bsz bs jb) _ (fun jj => nth (ii * bsz bs jb + jj) (sblk A ib jp) k0)).
          - intros jj Hjj. apply rd_ok. auto.
          - intros jj Hjj. pose proof (boff_in bs jb jj (bNB A) ltac:(auto) Hjj). lia.
          - intros; lia. }
        intros y (Ly & Y1 & Y2). split; [congruence|].
        intros jb' jj Hjb' Hjj. destruct (Nat.eq_dec jb' jb) as [->|Hne].
        * rewrite (Y1 jj Hjj). split; [|intros Hn; exfalso; apply (Hn jp); auto; lia].
          intros _. symmetry. apply bel_hit; auto.
        * rewrite Y2.
          2:{ intros jj' Hjj' E. assert (bloc bs (boff bs jb' + jj) = bloc bs (boff bs jb + jj')) by congruence.
              rewrite !bloc_at in H0 by (auto; lia). congruence. }
          destruct (HP jb' jj Hjb' Hjj) as [P1 P2]. split.
          { intros (jq & Hq & E). apply P1. exists jq. split; auto. assert (jq <> jp) by (intros ->; auto). lia. }
          { intros Hn. apply P2. intros jq Hq. apply Hn. lia. }
    - intros r (HL & HP). split; auto. intros j Hj. rewrite EN in Hj.
      destruct (bloc_spec bs j) as (jb & jj & E2 & Hjb & Hjj & Ej); [rewrite EB; exact Hj|].
      unfold ebmx. fold bs. rewrite E1, E2. rewrite Ej. destruct (HP jb jj ltac:(lia) Hjj) as [P1 P2].
      destruct (slot_dec A ib jb) as [Hs|Hn]; auto. rewrite P2 by auto. symmetry. apply bel_miss; auto.
  Qed.

  (** ** Sums over the matrix *)
  Lemma eb_trace_ok A : ebwf A -> eb_trace A = Ok (mtrace (bN A) (ebmx A)).
  Proof.
    intros HW. pose proof HW as (HS & HO & HR). unfold eb_trace, mtrace.
    rewrite (sum_loop _ _ (fun ib => bigsum (bsz (bbs A) ib) (fun ii => bel A ib ib (ii * bsz (bbs A) ib + ii)))).
    - rewrite bigsum_N by auto. f_equal. rewrite (Radd_0_l (k_ring F)). apply bigsum_ext. intros ib Hi. apply bigsum_ext. intros ii Hii.
      symmetry. apply ebmx_at; auto.
    - intros ib t Hi. rewrite b_bs_ok by auto. cbn [bind]. rewrite b_for_row_unfold by auto.
      set (S := bigsum _ _). apply wp_eq. apply wp_bind.
      apply wp_mono with (P := fun s : F * bool => fst s = kadd t (if snd s then S else k0) /\ (snd s = false -> forall jp, jp < bnz A ib -> scol A ib jp <> ib)).
      + apply (for_n_inv (fun n (s : F * bool) => fst s = kadd t (if snd s then S else k0) /\ (snd s = false -> forall jp, jp < n -> scol A ib jp <> ib))).
        * cbn [fst snd]. split; [ring|intros; lia].
        * intros jp [s d] Hjp [H1 H2]. cbn [fst snd] in *. destruct d; [cbn [wpq fst snd]; split; auto; discriminate|].
          destruct (ebwf_slot A ib jp) as (Hm & Hc & Hx & Hl); auto.
          destruct (Nat.eqb_spec ib (scol A ib jp)) as [E|E].
          { apply wp_bind. rewrite (b_blk_ok A ib jp (sblk A ib jp)) by auto. cbn [wpq]. apply wp_bind.
            rewrite (sum_loop _ _ (fun ii => bel A ib ib (ii * bsz (bbs A) ib + ii))).
            - cbn [wpq fst snd]. split; [|discriminate]. rewrite H1. fold S. ring.
            - intros ii s' Hii. assert (ii * bsz (bbs A) ib + ii < length (sblk A ib jp)).
              { pose proof (pos_lt (bsz (bbs A) ib) (bsz (bbs A) ib) ii ii Hii Hii). rewrite <- E in Hl. lia. }
              unfold ROWMAJOR. rewrite (rd_ok _ _ k0) by auto. cbn [bind]. rewrite (bel_hit A ib ib jp) by auto. reflexivity. }
          { cbn [wpq fst snd]. split; auto. intros _ jq Hq. destruct (Nat.eq_dec jq jp) as [->|]; auto. apply H2; auto. lia. }
      + intros [s d] [H1 H2]. cbn [wpq fst snd] in *. rewrite H1. f_equal. destruct d; auto. symmetry. unfold S. apply bigsum_zero.
        intros ii Hii. apply bel_miss. auto.
  Qed.

  Lemma eb_sum_squares_ok A : ebwf A -> eb_sum_squares A = Ok (msum (bN A) (mhad (ebmx A) (ebmx A))).
  Proof.
    intros HW. pose proof HW as (HS & HO & HR). unfold eb_sum_squares, msum.
    rewrite (sum_loop _ _ (fun ib => bigsum (bNB A) (fun jb => bigsum (bsz (bbs A) ib * bsz (bbs A) jb) (fun k => kmul (bel A ib jb k) (bel A ib jb k))))).
    - rewrite bigsum_mx by auto. f_equal. rewrite (Radd_0_l (k_ring F)). apply bigsum_ext. intros ib Hi. apply bigsum_ext. intros jb Hj.
      rewrite <- bigsum_cells. apply bigsum_ext. intros k Hk. unfold mhad.
      change (ebmx A _ _) with (xb (bbs A) (ebmx A) ib jb k). rewrite ebmx_xb by auto. reflexivity.
    - intros ib t Hi. rewrite b_for_row_unfold by auto.
      rewrite <- (row_sum A ib (fun jb f => bigsum (bsz (bbs A) ib * bsz (bbs A) jb) (fun k => kmul (f k) (f k)))); auto.
      2:{ intros c f f' E. apply bigsum_ext. intros k _. rewrite E. reflexivity. }
      2:{ intros c. apply bigsum_zero. intros. ring. }
      apply sum_loop. intros jp s Hjp. destruct (ebwf_slot A ib jp) as (Hm & Hc & Hx & Hl); auto.
      rewrite (b_blk_ok A ib jp (sblk A ib jp)) by auto. cbn [bind]. rewrite !b_bs_ok by auto. cbn [bind].
      rewrite for_2_flat. apply sum_loop. intros k s' Hk. destruct (pos_split _ _ _ Hk) as (P1 & P2 & P3).
      unfold ROWMAJOR. rewrite <- P3. rewrite (rd_ok _ _ k0) by lia. reflexivity.
  Qed.

  Lemma eb_trace_mult_ok A B : ebwf A -> ebwf B -> eb_dims A B -> bMB A = bMB B ->
    eb_trace_mult A B = Ok (mtrace (bN A) (mmul (bN A) (ebmx A) (ebmx B))).
  Proof.
    intros HW HWB (D1 & D2 & D3) DM. pose proof HW as (HS & HO & HR). pose proof HWB as (HSB & HOB & HRB). unfold eb_trace_mult, mtrace, mmul.
    rewrite <- D2, <- DM, !Nat.eqb_refl. cbn [andb negb].
    rewrite (sum_loop _ _ (fun ib => bigsum (bNB A) (fun jb => bigsum (bsz (bbs A) ib * bsz (bbs A) jb)
       (fun k => kmul (bel A ib jb k) (bel B jb ib (k mod bsz (bbs A) jb * bsz (bbs A) ib + k / bsz (bbs A) jb)))))).
    - rewrite (bigsum_mx A (fun i k => kmul (ebmx A i k) (ebmx B k i))) by auto. f_equal. rewrite (Radd_0_l (k_ring F)). apply bigsum_ext. intros ib Hi. apply bigsum_ext. intros jb Hj.
      rewrite <- bigsum_cells. apply bigsum_ext. intros k Hk. destruct (pos_split _ _ _ Hk) as (P1 & P2 & P3). unfold mhad.
      rewrite D3 in *. rewrite <- (ebmx_at B) by (rewrite <- ?D2; auto). f_equal.
      rewrite <- D3 in *. change (ebmx A _ _) with (xb (bbs A) (ebmx A) ib jb k). rewrite ebmx_xb by auto. reflexivity.
    - intros ib t Hi. rewrite b_for_row_unfold by auto.
      rewrite <- (row_sum A ib (fun jb f => bigsum (bsz (bbs A) ib * bsz (bbs A) jb) (fun k => kmul (f k) (bel B jb ib (k mod bsz (bbs A) jb * bsz (bbs A) ib + k / bsz (bbs A) jb))))); auto.
      2:{ intros c f f' E. apply bigsum_ext. intros k _. rewrite E. reflexivity. }
      2:{ intros c. apply bigsum_zero. intros. ring. }
      apply sum_loop. intros jp s Hjp. destruct (ebwf_slot A ib jp) as (Hm & Hc & Hx & Hl); auto.
      rewrite (b_blk_ok A ib jp (sblk A ib jp)) by auto. cbn [bind]. set (jb := scol A ib jp) in *.
      rewrite b_nnz_ok by (auto; congruence). cbn [bind].
      set (T := fun f : nat -> F => bigsum (bsz (bbs A) ib * bsz (bbs A) jb) (fun k => kmul (nth k (sblk A ib jp) k0) (f (k mod bsz (bbs A) jb * bsz (bbs A) ib + k / bsz (bbs A) jb)))).
      change (bigsum _ _) with (T (bel B jb ib)).
      assert (ET : T (bel B jb ib) = bigsum (bnz B jb) (fun kp => if scol B jb kp =? ib then T (fun k => nth k (sblk B jb kp) k0) else k0)).
      { rewrite (row_sum B jb (fun c f => if c =? ib then T f else k0)).
        - rewrite (bigsum_single _ ib); [rewrite Nat.eqb_refl; auto|congruence|]. intros c _ Hne. apply Nat.eqb_neq in Hne. rewrite Hne. auto.
        - apply HRB. congruence.
        - intros c f f' E. destruct (c =? ib); auto. apply bigsum_ext. intros k _. rewrite E. reflexivity.
        - intros c. destruct (c =? ib); auto. apply bigsum_zero. intros. ring. }
      rewrite ET. apply sum_loop. intros kp s' Hkp.
      destruct (ebwf_slot B jb kp) as (Hm' & Hc' & Hx' & Hl'); auto; [congruence|].
      replace (ROWMAJOR jb kp (bNB A) (bMB A)) with (b_at B jb kp) by (unfold b_at, ROWMAJOR; congruence).
      rewrite rd_idx_ok by (auto; congruence). cbn [bind].
      destruct (Nat.eqb_spec (scol B jb kp) ib) as [E|E]; [|f_equal; ring].
      rewrite (b_blk_ok B jb kp (sblk B jb kp)) by (auto; congruence). cbn [bind]. rewrite !b_bs_ok by auto. cbn [bind].
      rewrite for_2_flat. unfold T. apply sum_loop. intros k s'' Hk. destruct (pos_split _ _ _ Hk) as (P1 & P2 & P3).
      unfold ROWMAJOR. rewrite <- P3. rewrite (rd_ok _ _ k0) by lia. cbn [bind].
      rewrite E, <- D3 in Hl'. pose proof (pos_lt _ _ _ _ P2 P1).
      rewrite (rd_ok _ _ k0) by lia. reflexivity.
  Qed.

  (** ** get_diagonal *)
  Lemma eb_get_diagonal_ok A : ebwf A ->
    exists d, eb_get_diagonal A = Ok d /\ length d = bN A /\ forall i, i < bN A -> nth i d k0 = ebmx A i i.
  Proof.
    intros HW. pose proof HW as (HS & HO & HR). apply wp_ok. unfold eb_get_diagonal.
    pose proof (shape_N A HS) as EN. rewrite (sh_bs A HS) in EN. pose proof (sh_bs A HS) as EB.
    set (bs := bbs A) in *. apply wp_bind.
    set (P := fun n (s : list F * nat) => length (fst s) = bN A /\ snd s = boff bs n /\
       (forall ib ii, ib < n -> ii < bsz bs ib -> nth (boff bs ib + ii) (fst s) k0 = bel A ib ib (ii * bsz bs ib + ii)) /\
       (forall i, boff bs n <= i -> nth i (fst s) k0 = k0)).
    apply wp_mono with (P := P (bNB A)).
    - apply (for_n_inv P).
      + split; [apply repeat_length|]. split; [reflexivity|]. split; [intros; lia|]. intros. apply nth_repeat_any.
      + intros ib [d off] Hi (H1 & H2 & H3 & H4). cbn [fst snd] in *. subst off.
        apply wp_bind. rewrite b_bs_ok by auto. cbn [wpq]. fold bs. apply wp_bind. rewrite b_for_row_unfold by auto.
        set (b := bsz bs ib).
        assert (HbN : boff bs ib + b <= bN A). { rewrite EN. unfold b. rewrite <- boff_S. apply boff_mono. lia. }
        set (Q := fun n (d' : list F) => length d' = bN A /\
            (forall i, i < boff bs ib \/ boff bs ib + b <= i -> nth i d' k0 = nth i d k0) /\
            forall ii, ii < b -> ((exists jp, jp < n /\ scol A ib jp = ib) -> nth (boff bs ib + ii) d' k0 = bel A ib ib (ii * b + ii)) /\
               ((forall jp, jp < n -> scol A ib jp <> ib) -> nth (boff bs ib + ii) d' k0 = k0)).
        apply wp_mono with (P := Q (bnz A ib)).
        * apply (for_n_inv Q).
          { split; auto. split; [auto|]. intros ii Hii. split; [intros (jp & ? & _); lia|]. intros _. apply H4. lia. }
          intros jp d' Hjp (Q1 & Q2 & Q3). destruct (ebwf_slot A ib jp) as (Hm & Hc & Hx & Hl); auto.
          destruct (Nat.eqb_spec (scol A ib jp) ib) as [E|E].
          { apply wp_bind. rewrite (b_blk_ok A ib jp (sblk A ib jp)) by auto. cbn [wpq]. fold bs in Hl. rewrite E in Hl. fold b in Hl.
            eapply wp_mono.
            { apply (scatter_ok b _ (fun ii => nth (ii * b + ii) (sblk A ib jp) k0) (fun ii => boff bs ib + ii)).
              - intros ii Hii. apply rd_ok. unfold ROWMAJOR. pose proof (pos_lt b b ii ii Hii Hii). lia.
              - intros. lia.
              - intros; lia. }
            intros y (Y1 & Y2 & Y3). split; [congruence|]. split.
            - intros i Hr. rewrite Y3; auto. intros; lia.
            - intros ii Hii. rewrite Y2 by auto. split; [|intros Hn; exfalso; apply (Hn jp); auto].
              intros _. symmetry. apply bel_hit; auto. }
          { cbn [wpq]. split; auto. split; auto. intros ii Hii. destruct (Q3 ii Hii) as [Q4 Q5]. split.
            - intros (jq & Hq & Eq). apply Q4. exists jq. split; auto. assert (jq <> jp) by congruence. lia.
            - intros Hn. apply Q5. intros jq Hq. apply Hn. lia. }
        * intros d' (Q1 & Q2 & Q3). cbn [wpq]. split; [auto|]. cbn [fst snd]. split; [rewrite boff_S; reflexivity|]. split.
          { intros ib' ii Hib' Hii. destruct (Nat.eq_dec ib' ib) as [->|].
            - destruct (Q3 ii Hii) as [Q4 Q5]. destruct (slot_dec A ib ib) as [Hs|Hn]; [apply Q4; auto|].
              rewrite Q5 by auto. symmetry. apply bel_miss; auto.
            - assert (Hlt : ib' < ib) by lia. rewrite Q2; [apply H3; auto|]. left. apply boff_in; auto. }
          { intros i Hge. rewrite boff_S in Hge. rewrite Q2 by (right; exact Hge). apply H4. lia. }
    - intros [d off] (H1 & H2 & H3 & _). cbn [wpq fst snd] in *. split; auto. intros i Hi. rewrite EN in Hi.
      destruct (bloc_spec bs i) as (ib & ii & E & Hib & Hii & Ei); [rewrite EB; exact Hi|]. rewrite EB in Hib.
      rewrite Ei. unfold bs. rewrite ebmx_at by auto. apply H3; auto.
  Qed.

  (** ** export *)
  Lemma dense_pos_lt o N i j : i < N -> j < N -> dense_pos o N i j < N * N.
  Proof. intros. unfold dense_pos, ROWMAJOR, COLMAJOR. destruct o; [apply pos_lt; auto|]. pose proof (pos_lt N N j i ltac:(auto) ltac:(auto)). lia. Qed.
  Lemma dense_pos_inj o N i j i' j' : i < N -> j < N -> i' < N -> j' < N -> dense_pos o N i j = dense_pos o N i' j' -> i = i' /\ j = j'.
  Proof.
    intros H1 H2 H3 H4. unfold dense_pos, ROWMAJOR, COLMAJOR. destruct o; intros E.
    - assert (i = i') by (rewrite <- (pos_div N i j), <- (pos_div N i' j') by auto; congruence). split; auto. subst; lia.
    - rewrite (Nat.add_comm i), (Nat.add_comm i') in E.
      assert (j = j') by (rewrite <- (pos_div N j i), <- (pos_div N j' i') by auto; congruence). split; auto. subst; lia.
  Qed.
  Lemma dmat_pos o N (D : list F) i j : dmat o N D i j = nth (dense_pos o N i j) D k0.
  Proof. unfold dmat, dense_pos, ROWMAJOR, COLMAJOR. destruct o; reflexivity. Qed.

  Lemma eb_export_ok A o : ebwf A -> (forall ib, ib < bNB A -> 0 < bsz (bbs A) ib) ->
    exists D, eb_export A o = Ok D /\ length D = bN A * bN A /\ meq (bN A) (dmat o (bN A) D) (ebmx A).
  Proof.
    intros HW Hpos. pose proof HW as (HS & HO & HR). apply wp_ok. unfold eb_export.
    pose proof (shape_N A HS) as EN. rewrite (sh_bs A HS) in EN. pose proof (sh_bs A HS) as EB. pose proof (sh_nb A HS) as HNB.
    set (bs := bbs A) in *. set (N := bN A) in *.
    assert (HN0 : 0 < N). { rewrite EN. pose proof (boff_in bs 0 0 (bNB A) HNB ltac:(apply Hpos; auto)). lia. }
    destruct (Nat.eqb_spec N 0); [lia|]. rewrite offsets_ok by lia. cbn [bind].
    assert (Hall : forallb (fun x => x <? N) (map (boff bs) (seq 0 (bNB A))) = true).
    { apply forallb_forall. intros x Hx. apply in_map_iff in Hx as (ib & <- & Hib). apply in_seq in Hib.
      apply Nat.ltb_lt. pose proof (boff_in bs ib 0 (bNB A) ltac:(lia) ltac:(apply Hpos; lia)). lia. }
    rewrite Hall. cbn [negb].
    set (P := fun n (D : list F) => length D = N * N /\ forall ib jb ii jj, ib < bNB A -> jb < bNB A -> ii < bsz bs ib -> jj < bsz bs jb ->
        nth (dense_pos o N (boff bs ib + ii) (boff bs jb + jj)) D k0 = if ib <? n then bel A ib jb (ii * bsz bs jb + jj) else k0).
    assert (Hin : forall ib ii, ib < bNB A -> ii < bsz bs ib -> boff bs ib + ii < N). { intros ib ii ? ?. rewrite EN. apply boff_in; auto. }
    assert (Huniq : forall ib ii ib' ii', ib < bNB A -> ib' < bNB A -> ii < bsz bs ib -> ii' < bsz bs ib' -> boff bs ib + ii = boff bs ib' + ii' -> ib = ib' /\ ii = ii').
    { intros ib ii ib' ii' H1 H2 H3 H4 E. assert (E2 : bloc bs (boff bs ib + ii) = bloc bs (boff bs ib' + ii')) by congruence.
      rewrite !bloc_at in E2 by (auto; lia). split; congruence. }
    apply wp_mono with (P := P (bNB A)).
    - apply (for_n_inv P).
      + split; [apply repeat_length|]. intros. cbn [Nat.ltb Nat.leb]. apply nth_repeat_any.
      + intros ib D Hi (HL & HP). rewrite b_for_row_unfold by auto.
        set (Q := fun n (D : list F) => length D = N * N /\
          (forall ib' jb ii jj, ib' < bNB A -> jb < bNB A -> ii < bsz bs ib' -> jj < bsz bs jb -> ib' <> ib ->
             nth (dense_pos o N (boff bs ib' + ii) (boff bs jb + jj)) D k0 = if ib' <? ib then bel A ib' jb (ii * bsz bs jb + jj) else k0) /\
          forall jb ii jj, jb < bNB A -> ii < bsz bs ib -> jj < bsz bs jb ->
             ((exists jp, jp < n /\ scol A ib jp = jb) -> nth (dense_pos o N (boff bs ib + ii) (boff bs jb + jj)) D k0 = bel A ib jb (ii * bsz bs jb + jj)) /\
             ((forall jp, jp < n -> scol A ib jp <> jb) -> nth (dense_pos o N (boff bs ib + ii) (boff bs jb + jj)) D k0 = k0)).
        apply wp_mono with (P := Q (bnz A ib)).
        * apply (for_n_inv Q).
          { split; auto. split.
            - intros. rewrite HP by auto. reflexivity.
            - intros jb ii jj Hjb Hii Hjj. split; [intros (jp & ? & _); lia|]. intros _. rewrite HP by auto.
              destruct (Nat.ltb_spec ib ib); [lia|auto]. }
          intros jp D' Hjp (Q1 & Q2 & Q3). destruct (ebwf_slot A ib jp) as (Hm & Hc & Hx & Hl); auto.
          apply wp_bind. rewrite (b_blk_ok A ib jp (sblk A ib jp)) by auto. cbn [wpq].
          apply wp_bind. rewrite b_bs_ok by auto. cbn [wpq]. apply wp_bind. rewrite b_bs_ok by auto. cbn [wpq].
          fold bs. fold bs in Hl. set (c := scol A ib jp) in *. rewrite for_2_flat.
          set (sg := fun k => dense_pos o N (boff bs ib + k / bsz bs c) (boff bs c + k mod bsz bs c)).
          rewrite for_n_ext with (b2 := fun k D => v <- rd (sblk A ib jp) k ;; wr D (sg k) v).
          2:{ intros k s Hk. destruct (pos_split _ _ _ Hk) as (P1 & P2 & P3).
              rewrite !(rd_ok (map (boff bs) (seq 0 (bNB A))) _ 0) by (rewrite map_length, seq_length; auto).
              rewrite !nth_map_seq by auto. cbn [bind]. unfold ROWMAJOR. rewrite <- P3. reflexivity. }
          eapply wp_mono.
          { apply (scatter_ok _ _ (fun k => nth k (sblk A ib jp) k0) sg).
            - intros k Hk. apply rd_ok. lia.
            - intros k Hk. rewrite Q1. destruct (pos_split _ _ _ Hk) as (P1 & P2 & P3). apply dense_pos_lt; apply Hin; auto.
            - intros k k' Hk Hk' E. destruct (pos_split _ _ _ Hk) as (P1 & P2 & P3), (pos_split _ _ _ Hk') as (P1' & P2' & P3').
              apply dense_pos_inj in E; auto. destruct E as [E1 E2]. rewrite P3, P3'. replace (k / bsz bs c) with (k' / bsz bs c) by lia. lia. }
          intros y (Y1 & Y2 & Y3). split; [congruence|].
          assert (Hoff : forall ib' jb ii jj, ib' < bNB A -> jb < bNB A -> ii < bsz bs ib' -> jj < bsz bs jb -> ib' <> ib \/ jb <> c ->
             nth (dense_pos o N (boff bs ib' + ii) (boff bs jb + jj)) y k0 = nth (dense_pos o N (boff bs ib' + ii) (boff bs jb + jj)) D' k0).
          { intros ib' jb ii jj H1 H2 H3 H4 Hne. apply Y3. intros k Hk E. destruct (pos_split _ _ _ Hk) as (P1 & P2 & P3).
            apply dense_pos_inj in E; auto. destruct E as [E1 E2]. apply Huniq in E1 as [E1 _]; auto. apply Huniq in E2 as [E2 _]; auto. lia. }
          split.
          { intros. rewrite Hoff by auto. apply Q2; auto. }
          intros jb ii jj Hjb Hii Hjj. destruct (Nat.eq_dec jb c) as [->|Hne].
          { assert (E : nth (dense_pos o N (boff bs ib + ii) (boff bs c + jj)) y k0 = bel A ib c (ii * bsz bs c + jj)).
            { pose proof (pos_lt _ _ _ _ Hii Hjj) as Hk. specialize (Y2 _ Hk). unfold sg in Y2. rewrite pos_div, pos_mod in Y2 by auto.
              rewrite Y2. symmetry. apply bel_hit; auto. }
            split; auto. intros Hn. exfalso. apply (Hn jp); auto. }
          { rewrite Hoff by auto. destruct (Q3 jb ii jj Hjb Hii Hjj) as [Q4 Q5]. split.
            - intros (jq & Hq & Eq). apply Q4. exists jq. split; auto. assert (jq <> jp) by (intros ->; apply Hne; auto). lia.
            - intros Hn. apply Q5. intros jq Hq. apply Hn. lia. }
        * intros D' (Q1 & Q2 & Q3). split; auto. intros ib' jb ii jj H1 H2 H3 H4. destruct (Nat.eq_dec ib' ib) as [->|Hne].
          { destruct (Nat.ltb_spec ib (S ib)); [|lia]. destruct (Q3 jb ii jj H2 H3 H4) as [Q4 Q5].
            destruct (slot_dec A ib jb) as [Hs|Hn]; auto. rewrite Q5 by auto. symmetry. apply bel_miss; auto. }
          { rewrite Q2 by auto. destruct (Nat.ltb_spec ib' ib), (Nat.ltb_spec ib' (S ib)); auto; lia. }
    - intros D (HL & HP). split; auto. intros i j Hi Hj. rewrite dmat_pos.
      destruct (bloc_spec bs i) as (ib & ii & _ & Hib & Hii & Ei); [rewrite EB; lia|].
      destruct (bloc_spec bs j) as (jb & jj & _ & Hjb & Hjj & Ej); [rewrite EB; lia|]. rewrite EB in Hib, Hjb.
      rewrite Ei, Ej. unfold bs at 3 4. rewrite ebmx_at by auto. rewrite HP by auto. destruct (Nat.ltb_spec ib (bNB A)); [reflexivity|lia].
  Qed.

  (** ** counting *)
  Lemma count_loop n (f : nat -> nat -> res nat) (h : nat -> nat) s :
    (forall k s, k < n -> f k s = Ok (s + h k)) -> for_n n f s = Ok (s + nsum n h).
  Proof.
    intros H. apply wp_eq. apply (for_n_inv (fun n t => t = s + nsum n h)); [simpl; lia|].
    intros i t Hi ->. rewrite H by auto. cbn [wpq nsum]. lia.
  Qed.
  Lemma nsum_single n k f : k < n -> (forall i, i < n -> i <> k -> f i = 0) -> nsum n f = f k.
  Proof.
    induction n as [|n IH]; intros Hk H; [lia|]. cbn [nsum]. destruct (Nat.eq_dec k n) as [->|Hne].
    - rewrite (nsum_ext n f (fun _ => 0)) by (intros; apply H; lia). assert (G : forall n, nsum n (fun _ => 0) = 0) by (clear; induction n; simpl; lia). rewrite G. lia.
    - rewrite IH; [rewrite (H n) by lia; lia|lia|]. intros; apply H; lia.
  Qed.
  Lemma nsum_zero n f : (forall i, i < n -> f i = 0) -> nsum n f = 0.
  Proof. induction n as [|n IH]; intros H; simpl; auto. rewrite IH, H by auto. reflexivity. Qed.
  Lemma nsum_add n f g : nsum n (fun i => f i + g i) = nsum n f + nsum n g.
  Proof. induction n as [|n IH]; simpl; lia. Qed.
  Lemma nsum_swap n m f : nsum n (fun i => nsum m (fun j => f i j)) = nsum m (fun j => nsum n (fun i => f i j)).
  Proof.
    induction n as [|n IH]; simpl; [symmetry; apply nsum_zero; auto|]. rewrite IH, <- nsum_add. apply nsum_ext. auto.
  Qed.
  Lemma nsum_split a b f : nsum (a + b) f = nsum a f + nsum b (fun i => f (a + i)).
  Proof. induction b as [|b IH]; simpl; [rewrite Nat.add_0_r; lia|]. rewrite Nat.add_succ_r. cbn [nsum]. lia. Qed.
  Lemma nsum_blocks bs n f : nsum (boff bs n) f = nsum n (fun ib => nsum (bsz bs ib) (fun ii => f (boff bs ib + ii))).
  Proof. induction n as [|n IH]; [reflexivity|]. rewrite boff_S, nsum_split, IH. reflexivity. Qed.
  Lemma nsum_cells m n f : nsum (m * n) (fun k => f (k / n) (k mod n)) = nsum m (fun i => nsum n (fun j => f i j)).
  Proof.
    induction m as [|m IH]; [reflexivity|]. replace (S m * n) with (m * n + n) by lia. rewrite nsum_split, IH. cbn [nsum]. f_equal.
    apply nsum_ext; intros j Hj. rewrite pos_div, pos_mod by auto. reflexivity.
  Qed.
  Lemma nrow_sum A ib (h : nat -> (nat -> F) -> nat) : brow_ok A ib ->
    (forall c f f', (forall k, f k = f' k) -> h c f = h c f') -> (forall c, h c (fun _ => k0) = 0) ->
    nsum (bnz A ib) (fun jp => h (scol A ib jp) (fun k => nth k (sblk A ib jp) k0)) = nsum (bNB A) (fun jb => h jb (bel A ib jb)).
  Proof.
    intros HR He H0. pose proof HR as [H1 H2 H3].
    rewrite (nsum_ext (bNB A) _ (fun jb => nsum (bnz A ib) (fun jp => if scol A ib jp =? jb then h jb (fun k => nth k (sblk A ib jp) k0) else 0))).
    - rewrite nsum_swap. apply nsum_ext. intros jp Hj.
      rewrite (nsum_single _ (scol A ib jp)).
      + rewrite Nat.eqb_refl. reflexivity.
      + apply H2; auto.
      + intros jb _ Hne. destruct (Nat.eqb_spec (scol A ib jp) jb); auto. congruence.
    - intros jb Hjb. destruct (slot_dec A ib jb) as [(jp & Hj & E)|Hn].
      + rewrite (nsum_single _ jp); auto.
        * rewrite E, Nat.eqb_refl. apply He. intros k. apply bel_hit; auto.
        * intros jq Hq Hne. destruct (Nat.eqb_spec (scol A ib jq) jb); auto. destruct Hne. apply (scol_inj A ib); auto. congruence.
      + rewrite nsum_zero.
        * rewrite (He jb _ (fun _ => k0)); auto. intros k. apply bel_miss; auto.
        * intros jp Hj. specialize (Hn jp Hj). destruct (Nat.eqb_spec (scol A ib jp) jb); auto. congruence.
  Qed.
  Lemma count_nsum n p : count n p = nsum n (fun j => if p j then 1 else 0).
  Proof.
    unfold count. induction n as [|n IH]; [reflexivity|]. rewrite seq_S, filter_app, app_length, IH. cbn [nsum plus filter].
    destruct (p n); simpl; lia.
  Qed.

  (** the number of elements that pass the threshold *)
  Lemma eb_nnz_above_ok (keep : F -> bool) A : ebwf A -> keep k0 = false ->
    eb_nnz_above keep A = Ok (nsum (bN A) (fun i => count (bN A) (fun j => keep (ebmx A i j)))).
  Proof.
    intros HW Hk0. pose proof HW as (HS & HO & HR). unfold eb_nnz_above.
    pose proof (shape_N A HS) as EN. rewrite (sh_bs A HS) in EN.
    set (n1 := fun b : bool => if b then 1 else 0).
    rewrite (count_loop _ _ (fun ib => nsum (bNB A) (fun jb => nsum (bsz (bbs A) ib * bsz (bbs A) jb) (fun k => n1 (keep (bel A ib jb k)))))).
    - f_equal. cbn [plus].
      transitivity (nsum (boff (bbs A) (bNB A)) (fun i => nsum (boff (bbs A) (bNB A)) (fun j => n1 (keep (ebmx A i j))))).
      2:{ rewrite <- EN. apply nsum_ext. intros. symmetry. apply count_nsum. }
      rewrite nsum_blocks. apply nsum_ext. intros ib Hi.
      rewrite nsum_swap, nsum_blocks. apply nsum_ext. intros jb Hj. rewrite nsum_swap.
      rewrite <- nsum_cells. apply nsum_ext. intros k Hk. destruct (pos_split _ _ _ Hk) as (P1 & P2 & P3).
      change (ebmx A _ _) with (xb (bbs A) (ebmx A) ib jb k). rewrite ebmx_xb by auto. reflexivity.
    - intros ib t Hi. rewrite b_for_row_unfold by auto.
      rewrite <- (nrow_sum A ib (fun jb f => nsum (bsz (bbs A) ib * bsz (bbs A) jb) (fun k => n1 (keep (f k))))); auto.
      2:{ intros c f f' E. apply nsum_ext. intros k _. rewrite E. reflexivity. }
      2:{ intros c. apply nsum_zero. intros. rewrite Hk0. reflexivity. }
      apply count_loop. intros jp s Hjp. destruct (ebwf_slot A ib jp) as (Hm & Hc & Hx & Hl); auto.
      rewrite (b_blk_ok A ib jp (sblk A ib jp)) by auto. cbn [bind]. rewrite !b_bs_ok by auto. cbn [bind].
      rewrite for_2_flat. apply count_loop. intros k s' Hk. destruct (pos_split _ _ _ Hk) as (P1 & P2 & P3).
      unfold ROWMAJOR. rewrite <- P3. rewrite (rd_ok _ _ k0) by lia. cbn [bind]. unfold n1.
      destruct (keep (nth k (sblk A ib jp) k0)); f_equal; lia.
  Qed.

  (** bandwidth of a row: the total width of the blocks stored in its block row *)
  Lemma eb_row_bandwidth_ok A i : ebwf A -> i < bN A ->
    eb_row_bandwidth A i = Ok (nsum (bNB A) (fun jb => if existsb (Nat.eqb jb) (bcols A (fst (bloc (bbs A) i))) then bsz (bbs A) jb else 0)).
  Proof.
    intros HW Hi. pose proof HW as (HS & HO & HR). unfold eb_row_bandwidth. rewrite (shape_N A HS) in Hi.
    rewrite locate_ok by auto. cbn [bind plus]. destruct (bloc_spec _ _ Hi) as (ib & ii & E1 & Hib & Hii & _). rewrite E1. cbn [fst snd].
    rewrite (sh_bs A HS) in Hib. rewrite b_for_row_unfold by auto.
    rewrite (count_loop _ _ (fun jp => bsz (bbs A) (scol A ib jp))).
    2:{ intros jp s Hjp. destruct (ebwf_slot A ib jp) as (Hm & Hc & Hx & Hl); auto. rewrite b_bs_ok by auto. reflexivity. }
    f_equal. cbn [plus].
    rewrite (nsum_ext (bNB A) _ (fun jb => nsum (bnz A ib) (fun jp => if scol A ib jp =? jb then bsz (bbs A) jb else 0))).
    - rewrite nsum_swap. apply nsum_ext. intros jp Hjp. destruct (ebwf_slot A ib jp) as (Hm & Hc & Hx & Hl); auto.
      rewrite (nsum_single _ (scol A ib jp)); auto; [rewrite Nat.eqb_refl; auto|].
      intros jb _ Hne. destruct (Nat.eqb_spec (scol A ib jp) jb); congruence.
    - intros jb Hjb. destruct (slot_dec A ib jb) as [(jp & Hj & E)|Hn].
      + assert (existsb (Nat.eqb jb) (bcols A ib) = true) as ->.
        { apply existsb_exists. exists jb. rewrite Nat.eqb_refl. split; auto. unfold bcols. apply in_map_iff. exists jp. split; auto. apply in_seq. lia. }
        rewrite (nsum_single _ jp); auto; [rewrite E, Nat.eqb_refl; auto|].
        intros jq Hq Hne. destruct (Nat.eqb_spec (scol A ib jq) jb); auto. destruct Hne. apply (scol_inj A ib); auto. congruence.
      + assert (existsb (Nat.eqb jb) (bcols A ib) = false) as ->.
        { apply not_true_iff_false. intros H. apply existsb_exists in H as (c & Hc & E). apply Nat.eqb_eq in E. subst c.
          unfold bcols in Hc. apply in_map_iff in Hc as (jp & E & Hj). apply in_seq in Hj. apply (Hn jp); auto; lia. }
        symmetry. apply nsum_zero. intros jp Hj. specialize (Hn jp Hj). destruct (Nat.eqb_spec (scol A ib jp) jb); congruence.
  Qed.
End Read.
