(** Block matrices: bml_set_block and conversion. *)
From Verif Require Import Base BaseFacts Spec SpecFacts EllpackModel EllpackSpec EllblockModel EllblockSpec EllblockFacts EllblockHeap EllblockRead EllblockBuild EllblockMake EllblockSet EllblockCopy.

Section Conv.
  Context {F : scalar}.
  Local Notation eb := (eb F).
  Implicit Types A B C : eb.

  (** the search of bml_set_block finds slot [p] *)
  Lemma set_block_core {e} cap B ib jb p x z : eb_shape B -> own cap B -> ib < bNB B -> jb < bNB B -> p < bnz B ib -> bnz B ib <= bMB B ->
    p < cap ib -> bobj B ib p = Some z -> scol B ib p = jb -> (forall q, q < p -> scol B ib q <> jb) ->
    bsz (bbs B) ib * bsz (bbs B) jb <= length z -> bsz (bbs B) ib * bsz (bbs B) jb <= length x ->
    wpq e (eb_set_block B ib jb x) (fun B' => exists y, b_wblk B (b_at B ib p) y = Ok B' /\ length y = length z /\
      forall k, k < bsz (bbs B) ib * bsz (bbs B) jb -> nth k y k0 = nth k x k0).
  Proof.
    intros HS HO Hi Hj Hp HM Hpc Hz Hc Hq Lz Lx. unfold eb_set_block.
    destruct (Nat.leb_spec (bNB B) ib); [lia|]. destruct (Nat.leb_spec (bNB B) jb); [lia|]. cbn [orb].
    apply wp_bind. rewrite b_nnz_ok by auto. cbn [wpq]. apply wp_bind.
    match goal with |- wpq e (for_n _ ?f _) _ => set (body := f) end.
    set (n := bsz (bbs B) ib * bsz (bbs B) jb) in *.
    set (P := fun B' => exists y, b_wblk B (b_at B ib p) y = Ok B' /\ length y = length z /\ forall k, k < n -> nth k y k0 = nth k x k0).
    assert (G : wpq e (for_n (bnz B ib) body (B, false)) (fun s => if bnz B ib <=? p then s = (B, false) else snd s = true /\ P (fst s))).
    { apply (for_n_inv (fun jp s => if jp <=? p then s = (B, false) else snd s = true /\ P (fst s))).
      - reflexivity.
      - intros jp [B' done] Hjp HI. unfold body at 1. destruct (Nat.leb_spec jp p) as [Hle|Hgt].
        + injection HI as -> ->. cbn [wpq]. apply wp_bind. rewrite rd_idx_ok by (auto; lia). cbn [wpq].
          destruct (Nat.eqb_spec (scol B ib jp) jb) as [E|E].
          * assert (jp = p). { destruct (Nat.eq_dec jp p); auto. exfalso. apply (Hq jp); auto; lia. } subst jp.
            destruct (Nat.leb_spec (S p) p); [lia|].
            apply wp_bind. rewrite b_bs_ok by auto. cbn [wpq]. apply wp_bind. rewrite b_bs_ok by auto. cbn [wpq].
            apply wp_bind. rewrite (b_blk_ok B ib p z) by (auto; lia). cbn [wpq]. fold n.
            apply wp_bind. eapply wp_mono; [apply (blk_map_ok n _ (fun k => nth k x k0)); [lia|intros; apply rd_ok; lia]|].
            intros y (Ly & Vy & _). apply wp_bind.
            pose proof (b_wblk_ok (e:=False) cap B ib p z y HS HO Hi Hpc Hz) as GW.
            destruct (b_wblk B (b_at B ib p) y) as [B''| | |] eqn:EW; cbn [wpq] in GW; try tauto.
            cbn [wpq fst snd]. split; [reflexivity|]. exists y. split; [exact EW|]. split; [lia|exact Vy].
          * assert (jp <> p) by (intros ->; auto). destruct (Nat.leb_spec (S jp) p); [|lia]. reflexivity.
        + destruct HI as (Hd & HI). cbn [snd] in Hd. subst done. destruct (Nat.leb_spec (S jp) p); [lia|]. cbn [wpq fst snd]. auto. }
    eapply wp_mono; [exact G|]. intros [B' done]. cbn beta. destruct (Nat.leb_spec (bnz B ib) p); [lia|].
    cbn [fst snd]. intros (-> & HE). exact HE.
  Qed.

  (** ** bml_set_block *)
  Theorem eb_set_block_ok A ib jb x : ebwf A -> ib < bNB A -> In jb (bcols A ib) -> bsz (bbs A) ib * bsz (bbs A) jb <= length x ->
    exists A', eb_set_block A ib jb x = Ok A' /\ ebwf A' /\ same_dims A A' /\ (clean A -> clean A') /\
      (forall i, i < bNB A -> bcols A' i = bcols A i) /\
      forall i c k, i < bNB A -> c < bNB A -> k < bsz (bbs A) i * bsz (bbs A) c ->
        bel A' i c k = if ((i =? ib) && (c =? jb))%bool then nth k x k0 else bel A i c k.
  Proof.
    intros W Hi HI Lx. pose proof W as (HS & HO & HR).
    apply in_map_iff in HI. destruct HI as (p & Ep & Hp). apply in_seq in Hp.
    destruct (ebwf_slot A ib p) as (H1 & H2 & H3 & H4); auto; try lia.
    assert (G : wpq False (eb_set_block A ib jb x) (fun A' => exists y, b_wblk A (b_at A ib p) y = Ok A' /\ length y = length (sblk A ib p) /\
      forall k, k < bsz (bbs A) ib * bsz (bbs A) jb -> nth k y k0 = nth k x k0)).
    { apply (set_block_core (bnz A)); auto; try lia.
      - apply ebwf_nnz; auto.
      - intros q Hq Ec. assert (q = p); [|lia]. apply (scol_inj A ib q p); auto; try lia; congruence.
      - rewrite <- Ep. lia. }
    match type of G with wpq _ ?t _ => destruct t as [A'| | |] eqn:E end; cbn [wpq] in G; try tauto.
    destruct G as (y & EW & Ly & Vy). exists A'. split; [reflexivity|].
    pose proof (change_ok (e:=False) A ib p y W Hi ltac:(lia) ltac:(lia)) as HC. rewrite EW in HC. cbn [wpq] in HC.
    split; [apply HC|]. split; [apply kin_dims, HC|]. split; [apply HC|]. split; [intros; eapply changed_cols; eauto; lia|].
    intros i c k Hi' Hc Hk. rewrite (changed_bel A ib p y A') by (auto; lia). rewrite Ep.
    destruct (Nat.eqb_spec i ib) as [->|]; [|reflexivity]. destruct (Nat.eqb_spec c jb) as [->|]; [|reflexivity]. cbn [andb]. auto.
  Qed.

  (** a block the matrix does not hold is refused *)
  Theorem eb_set_block_absent A ib jb x : ebwf A -> ib < bNB A -> ~ In jb (bcols A ib) -> eb_set_block A ib jb x = Err.
  Proof.
    intros W Hi HI. pose proof W as (HS & HO & HR). unfold eb_set_block.
    destruct (Nat.leb_spec (bNB A) ib); [lia|]. destruct (Nat.leb_spec (bNB A) jb); [reflexivity|]. cbn [orb].
    rewrite b_nnz_ok by auto. cbn [bind].
    match goal with |- context [for_n _ ?f _] => set (body := f) end.
    assert (G : wpq False (for_n (bnz A ib) body (A, false)) (fun s => s = (A, false))).
    { apply (for_n_inv (fun _ s => s = (A, false))); auto. intros jp s Hjp ->. unfold body.
      destruct (ebwf_slot A ib jp) as (H1 & _); auto. rewrite rd_idx_ok by auto. cbn [bind].
      destruct (Nat.eqb_spec (scol A ib jp) jb) as [E|]; [|reflexivity]. exfalso. apply HI. rewrite <- E. apply in_map. apply in_seq. lia. }
    match type of G with wpq _ ?t _ => destruct t as [s| | |] end; cbn [wpq] in G; try tauto. subst s. reflexivity.
  Qed.

  (** ** Conversion *)
  (** a row of the converted matrix: [n] blocks made so far *)
  Record crow (v : nat -> nat -> F) B (ib n : nat) B' : Prop := mkCrow {
    cr_kin : kin B B';
    cr_own : own (fun i => if i =? ib then n else bnz B i) B';
    cr_nnz : bnz B' ib = bNB B;
    cr_same : forall i, i < bNB B -> i <> ib -> row_same (bnz B) B B' i;
    cr_addr : forall i jp, i < bNB B -> i <> ib -> jp < bMB B -> saddr B' i jp = saddr B i jp;
    cr_row : exists L, length L = n /\ rowp B' ib L /\ (forall q, q < n -> fst (nth q L (0, [])) = q /\
      bsz (bbs B) ib * bsz (bbs B) q <= length (snd (nth q L (0, []))) /\
      forall k, k < bsz (bbs B) ib * bsz (bbs B) q -> nth k (snd (nth q L (0, []))) k0 = v q k) }.

  Lemma crow_step {e} v B ib jb B1 (g : nat -> F) n (fill : res (list F)) : ebwf B -> ib < bNB B -> bMB B = bNB B -> jb < bNB B ->
    n = bsz (bbs B) ib * bsz (bbs B) jb ->
    wpq e fill (fun x => length x = n /\ forall k, k < n -> nth k x k0 = v jb k) ->
    crow v B ib jb B1 ->
    wpq e (B2 <- b_alloc B1 (b_at B ib jb) n g ;; B2 <- b_widx B2 (b_at B ib jb) jb ;; x <- fill ;; eb_set_block B2 ib jb x) (crow v B ib (S jb)).
  Proof.
    intros W Hi EM Hj Hn Hfill HC. pose proof W as (HS & HO & HR). pose proof HC as [K1 O1 N1 S1 A1 (L & LL & RL & VL)].
    pose proof K1 as (_ & _ & EN1 & EM1 & EB1 & _). pose proof (kin_shape _ _ K1 HS) as HS1.
    set (cap := fun i => if i =? ib then jb else bnz B i) in *.
    assert (Ecap : cap ib = jb) by (unfold cap; rewrite Nat.eqb_refl; auto).
    set (cap' := capx cap ib jb).
    assert (Ecap' : cap' ib = S jb) by (unfold cap', capx; rewrite Nat.eqb_refl, Ecap; lia).
    rewrite <- (kin_at B B1) by auto.
    apply wp_bind. eapply wp_mono; [apply (b_alloc_ok cap B1 ib jb n g); auto; lia|]. fold cap'. intros B2 SS2.
    pose proof (ss_kin _ _ _ _ _ _ _ SS2) as K2. pose proof K2 as (_ & _ & EN2 & EM2 & EB2 & _). pose proof (kin_shape _ _ K2 HS1) as HS2.
    rewrite <- (kin_at B1 B2) by auto.
    apply wp_bind. eapply wp_mono; [apply (b_widx_ok cap' B2 ib jb jb (map g (seq 0 n))); try apply SS2; auto; lia|]. intros B3 SS3.
    pose proof (slot_set_trans _ _ _ _ _ _ _ _ _ _ SS2 SS3) as SS13.
    pose proof (ss_kin _ _ _ _ _ _ _ SS13) as K3. pose proof K3 as (_ & _ & EN3 & EM3 & EB3 & _). pose proof (kin_shape _ _ K3 HS1) as HS3.
    apply wp_bind. eapply wp_mono; [exact Hfill|]. intros x (Lx & Vx).
    assert (HNZ3 : bnz B3 ib = bNB B). { unfold bnz. rewrite (ss_nnz _ _ _ _ _ _ _ SS13). exact N1. }
    assert (EBB : bbs B3 = bbs B) by congruence.
    eapply wp_mono; [apply (set_block_core cap' B3 ib jb jb x (map g (seq 0 n))); try apply SS13; auto; try lia|].
    - intros q Hq. rewrite (ss_cols _ _ _ _ _ _ _ SS13) by (auto; lia). destruct (RL q) as [-> _]; [lia|]. destruct (VL q Hq) as (-> & _). lia.
    - rewrite map_length, seq_length, EBB. lia.
    - rewrite EBB. lia.
    - rewrite EBB. intros B4 (y & EW & Ly & Vy). rewrite map_length, seq_length in Ly. rewrite <- Hn in Vy.
      pose proof (b_wblk_ok (e:=False) cap' B3 ib jb (map g (seq 0 n)) y HS3 (ss_own _ _ _ _ _ _ _ SS13) ltac:(lia) ltac:(lia) (ss_obj _ _ _ _ _ _ _ SS13)) as SS4.
      rewrite EW in SS4. cbn [wpq] in SS4. rewrite (ss_col _ _ _ _ _ _ _ SS13) in SS4.
      pose proof (slot_set_trans _ _ _ _ _ _ _ _ _ _ SS13 SS4) as SS.
      pose proof (ss_kin _ _ _ _ _ _ _ SS) as K4. pose proof K4 as (_ & _ & EN4 & EM4 & EB4 & _).
      constructor.
      + eapply kin_trans; eauto.
      + apply own_cap_eq with (cap := cap'); [|apply SS]. intros i Hi'. unfold cap', capx, cap. destruct (Nat.eqb_spec i ib); [subst|]; lia.
      + unfold bnz. rewrite (ss_nnz _ _ _ _ _ _ _ SS). exact N1.
      + intros i Hi' Hne. eapply row_same_trans; [exact K1|apply S1; auto|].
        apply row_same_mono with (cap := cap'). { unfold cap', capx, cap. destruct (Nat.eqb_spec i ib); lia. }
        eapply slot_set_same; eauto. lia.
      + intros i jp Hi' Hne Hjp. rewrite (ss_addrs _ _ _ _ _ _ _ SS) by (auto; lia). auto.
      + exists (L ++ [(jb, y)]). split; [rewrite app_length; cbn [length]; lia|]. split.
        * apply (rowp_snoc cap' B1 B4 ib L jb y); try lia; auto. rewrite LL. exact SS.
        * intros q Hq. destruct (Nat.eq_dec q jb) as [->|].
          -- rewrite app_nth2 by lia. rewrite LL, Nat.sub_diag. cbn [nth fst snd]. split; [auto|]. split; [lia|]. intros k Hk. rewrite Vy by lia. apply Vx. lia.
          -- rewrite app_nth1 by lia. apply VL. lia.
  Qed.

  Lemma crow_done v B ib B' : ebwf B -> ib < bNB B -> bMB B = bNB B -> crow v B ib (bNB B) B' ->
    ebwf B' /\ kin B B' /\ (forall i, i < bNB B -> i <> ib -> brow B' i = brow B i) /\ (clean B -> clean B') /\
    forall jb k, jb < bNB B -> k < bsz (bbs B) ib * bsz (bbs B) jb -> bel B' ib jb k = v jb k.
  Proof.
    intros W Hi EM [K O N S A (L & LL & RL & VL)]. pose proof W as (HS & HO & HR). pose proof K as (_ & _ & EN & EM' & EB & _).
    assert (HB : forall i, i < bNB B -> i <> ib -> brow B' i = brow B i).
    { intros i Hi' Hne. apply (row_same_brow (bnz B)); auto. apply ebwf_nnz; auto. }
    assert (HRC : rcont B' ib L) by (split; [lia|auto]).
    assert (HF : map fst L = seq 0 (bNB B)).
    { apply list_ext_nth with (d := 0); [rewrite map_length, seq_length; auto|]. intros q Hq. rewrite map_length in Hq.
      change 0 with (fst (0, @nil F)) at 1. rewrite map_nth. rewrite seq_nth by lia. apply VL. lia. }
    assert (HL : lrow_ok (bbs B') (bNB B') ib L).
    { split; [rewrite HF; apply seq_NoDup|]. intros p Hp. destruct (In_nth L p (0, []) Hp) as (q & Hq & <-). destruct (VL q ltac:(lia)) as (-> & H & _).
      rewrite EN, EB. split; [lia|auto]. }
    split.
    { split; [eapply kin_shape; eauto|]. split.
      - eapply own_cap_eq; [|exact O]. intros i Hi'. cbn beta. destruct (Nat.eqb_spec i ib); [subst; auto|]. apply (rs_nnz _ _ _ _ (S i ltac:(lia) ltac:(lia))).
      - rewrite EN. intros i Hi'. destruct (Nat.eq_dec i ib) as [->|]; [eapply lrow_brow_ok; eauto|].
        apply (row_same_ok (bnz B) B); auto. apply ebwf_nnz; auto. }
    split; [auto|]. split; [auto|]. split.
    { intros HC i jp Hi' Hj. rewrite EN in Hi'. destruct (Nat.eq_dec i ib) as [->|Hne]; [lia|]. rewrite EM' in Hj.
      rewrite (rs_nnz _ _ _ _ (S i Hi' Hne)) in Hj. rewrite A by (auto; lia). apply HC; auto. }
    intros jb k Hj Hk. rewrite bel_brow, (rcont_brow _ _ _ HRC).
    assert (HN : nth jb L (0, []) = (jb, snd (nth jb L (0, [])))).
    { destruct (VL jb Hj) as (E & _). destruct (nth jb L (0, [])) as [u w]. cbn [fst] in E. subst. reflexivity. }
    destruct (VL jb Hj) as (_ & _ & V). rewrite <- V by auto. apply elook_in.
    - rewrite cells_cols, HF. apply seq_NoDup.
    - unfold cells. apply in_map_iff. exists (nth jb L (0, [])). split; [rewrite HN at 1; reflexivity|]. apply nth_In. lia.
  Qed.

  Theorem eb_convert_ok c N (get : nat -> nat -> res F) (X : mat F) M d (g : nat -> F) :
    M <= N -> bml_get_block_sizes c N N = Ok d -> sizes_for d N ->
    (forall i j, i < N -> j < N -> get i j = Ok (X i j)) ->
    exists A, eb_convert c N get M g = Ok (Some d, A) /\ ebwf A /\ clean A /\ bN A = N /\ bM A = M /\
      bNB A = s_nb d /\ bMB A = s_nb d /\ bbs A = s_bsize d /\ meq N (ebmx A) X.
  Proof.
    intros HM E HSz HG. pose proof HSz as (H1 & H2 & H3 & H4). unfold eb_convert. rewrite E. cbn [bind].
    destruct (block_matrix_ok (F:=F) (Some d) (s_nb d) (s_nb d) M (s_bsize d)) as (A & EA & HF); auto; [lia|cbn; lia|].
    rewrite EA. cbn [bind cache_after].
    pose proof (fr_NB _ _ _ _ _ HF) as ENB. pose proof (fr_MB _ _ _ _ _ HF) as EMB. pose proof (fr_bs _ _ _ _ _ HF) as EBS.
    rewrite offsets_ok by lia. cbn [bind].
    match goal with |- context [for_n (bNB A) ?b A] => set (body := b) end.
    assert (G : wpq False (for_n (bNB A) body A) (fun B => ebwf B /\ kin A B /\ (clean A -> clean B) /\
       forall ib jb k, ib < bNB A -> jb < bNB A -> k < bsz (bbs A) ib * bsz (bbs A) jb -> bel B ib jb k = xb (s_bsize d) X ib jb k)).
    { apply build_rows'; [apply HF|intros; apply (fr_row _ _ _ _ _ HF)|]. intros ib B Hi W K H0. pose proof K as (_ & _ & EN & EM & EB & _).
      unfold body. pose proof W as (HS & HO & HR). apply wp_bind. apply b_wnnz_ok'; [auto|lia|]. intros B1 N1.
      assert (E0 : bnz B ib = 0) by (rewrite <- brow_length, H0; auto).
      pose proof (ns_kin _ _ _ _ N1) as K1.
      eapply wp_mono with (P := crow (xb (s_bsize d) X ib) B ib (bNB B)); [|intros B' HC; apply crow_done in HC; auto; try lia; rewrite ?EB, ?EBS in *; auto].
      rewrite <- EN. apply (for_n_inv (fun jb B' => crow (xb (s_bsize d) X ib) B ib jb B')).
      - constructor; auto.
        + apply own_cap_eq with (cap := bnz B); [|eapply nnz_set_own; eauto]. intros i _. destruct (Nat.eqb_spec i ib); [subst; auto|auto].
        + rewrite (ns_at _ _ _ _ N1). auto.
        + intros. eapply nnz_set_same; eauto.
        + intros. eapply nnz_set_addr; eauto.
        + exists []. split; [reflexivity|]. split; [intros jp Hjp; cbn in Hjp; lia|intros q Hq; lia].
      - intros jb B2 Hj HC. cbn beta.
        rewrite (rd_ok (s_bsize d) ib 0) by lia. cbn [bind]. rewrite (rd_ok (s_bsize d) jb 0) by lia. cbn [bind].
        replace (ROWMAJOR ib jb (bNB B) (bNB B)) with (b_at B ib jb) by (unfold b_at, ROWMAJOR; congruence).
        change (nth ib (s_bsize d) 0) with (bsz (s_bsize d) ib). change (nth jb (s_bsize d) 0) with (bsz (s_bsize d) jb).
        apply (crow_step (xb (s_bsize d) X ib)); auto; try lia; [congruence|].
        set (bi := bsz (s_bsize d) ib). set (bj := bsz (s_bsize d) jb).
        eapply wp_mono. { apply (blk_fill_ok bi bj _ (fun ii jj => X (boff (s_bsize d) ib + ii) (boff (s_bsize d) jb + jj))).
          - rewrite map_length, seq_length. auto.
          - intros ii jj Hii Hjj. rewrite !(rd_ok (map (boff (s_bsize d)) (seq 0 (bNB B))) _ 0) by (rewrite map_length, seq_length; lia). cbn [bind].
            rewrite !nth_map_seq by lia. cbn [Nat.add]. apply HG; rewrite <- H4; apply boff_in; auto; lia. }
        intros x (Lx & Vx). rewrite map_length, seq_length in Lx. split; [auto|]. intros k Hk. rewrite Vx by auto. reflexivity. }
    match type of G with wpq _ ?t _ => destruct t as [B| | |] end; cbn [wpq bind] in G |- *; try tauto.
    destruct G as (W & K & C & V). exists B. split; [reflexivity|]. split; auto. split; [apply C, HF|].
    pose proof K as (EN & EMM & ENB' & EMB' & EB & _). pose proof (fr_N _ _ _ _ _ HF) as EN0.
    split; [congruence|]. split; [rewrite EMM; apply HF|]. split; [congruence|]. split; [congruence|]. split; [congruence|].
    assert (HNB : bN B = N) by congruence. rewrite <- HNB at 1.
    pose proof W as (HS & _ & _). apply meq_blocks; auto. rewrite ENB', EB. intros ib jb k Hi Hj Hk. rewrite V by auto. rewrite EBS. reflexivity.
  Qed.
End Conv.
