(** Proofs about the typed element getters and the Fortran interface. *)
From Verif Require Import Base BaseFacts Spec SpecFacts EllpackModel EllpackSpec EllpackFacts EllpackOps EllpackMul2 EllpackExact
  CsrModel CsrSpec CsrFacts CsrOps CsrTop
  GemmModel DenseModel DenseSpec DenseFacts DenseOps FormatModel FormatSpec FormatFacts FortranModel FortranSpec.

Section FortranFacts.
  Context {F : scalar}.
  Local Open Scope K_scope.
  Local Notation bmat := (bmat F).

  (** ** The typed getters *)
  Lemma elem_scan_ok (A : ell F) ri i j n l : shape A -> (ri < eN A)%nat -> (i < eN A)%nat -> (l + n <= eM A)%nat ->
    elem_scan A ri i j l n =
    Ok (elook (map (fun l => (nth (ri * eM A + l) (eidx A) 0%nat, nth (i * eM A + l) (eval A) 0)) (seq l n)) j).
  Proof.
    intros (S1 & S2 & S3) Hr Hi. revert l. induction n as [|n IH]; intros l Hl; cbn [elem_scan seq map elook]; auto.
    assert (B1 : (ri * eM A + l < eN A * eM A)%nat) by nia.
    assert (B2 : (i * eM A + l < eN A * eM A)%nat) by nia.
    unfold ROWMAJOR. rewrite (rd_ok _ _ 0%nat) by lia. cbn [bind].
    destruct (Nat.eqb_spec (nth (ri * eM A + l) (eidx A) 0%nat) j).
    - rewrite (rd_ok _ _ 0) by lia. auto.
    - apply IH. lia.
  Qed.

  Lemma ell_typed_exact p (A : ell F) i j : wf A -> (i < eN A)%nat -> (j < eN A)%nat ->
    ell_get_element_typed p A i j = Ok (elook (seen A (match p with single_real => i | _ => 0%nat end) i) j).
  Proof.
    intros HA Hi Hj. unfold ell_get_element_typed.
    destruct (Nat.leb_spec (eN A) i); [lia|]. destruct (Nat.leb_spec (eN A) j); [lia|].
    pose proof (wf_nnz A i HA Hi). unfold e_nnz. rewrite (rd_ok _ _ 0%nat) by (rewrite (proj2 (proj2 (proj1 HA))); auto). cbn [bind].
    apply elem_scan_ok; auto. apply HA. destruct p; lia.
  Qed.

  Lemma seen_own (A : ell F) i : seen A i i = erow A i.
  Proof. reflexivity. Qed.

  Lemma ell_single_ok (A : ell F) i j : wf A -> (i < eN A)%nat -> (j < eN A)%nat ->
    ell_get_element_typed single_real A i j = Ok (emat A i j).
  Proof. intros HA Hi Hj. rewrite ell_typed_exact by auto. auto. Qed.

  (** the other precisions are right where the slots of row 0 have the columns
      of row i *)
  Lemma ell_typed_same p (A : ell F) i j : wf A -> (i < eN A)%nat -> (j < eN A)%nat ->
    (forall l, (l < nnz A i)%nat -> nth l (eidx A) 0%nat = nth (i * eM A + l) (eidx A) 0%nat) ->
    ell_get_element_typed p A i j = Ok (emat A i j).
  Proof.
    intros HA Hi Hj H. rewrite ell_typed_exact by auto. f_equal. unfold emat, erow, slots.
    destruct p; auto; unfold seen; f_equal; apply map_ext_in; intros l Hl; apply in_seq in Hl; cbn [Nat.mul Nat.add]; rewrite H by lia; auto.
  Qed.

  Lemma typed_bounds p (A : bmat) i j : bwf A -> (bml_get_N A <= i \/ bml_get_N A <= j)%nat -> bml_get_element_typed p A i j = Err.
  Proof.
    destruct A as [A|A|A]; cbn [bwf bml_get_N bml_get_element_typed]; intros W H; auto.
    - rewrite dense_get_element_checked_ok by auto. destruct (Nat.ltb_spec i (dN A)); auto. destruct (Nat.ltb_spec j (dN A)); auto. lia.
    - unfold ell_get_element_typed. destruct (Nat.leb_spec (eN A) i); auto. destruct (Nat.leb_spec (eN A) j); auto. lia.
  Qed.

  Lemma dense_typed_ok p (A : dense F) i j : dwf A -> (i < dN A)%nat -> (j < dN A)%nat ->
    bml_get_element_typed p (BDense A) i j = Ok (denm A i j).
  Proof.
    intros W Hi Hj. cbn [bml_get_element_typed]. rewrite dense_get_element_checked_ok by auto.
    apply Nat.ltb_lt in Hi, Hj. rewrite Hi, Hj. auto.
  Qed.

  (** ** Arrays *)
  Lemma nth_skip_add p : forall (l : list F) q, nth q (skipn p l) 0 = nth (p + q) l 0.
  Proof. induction p as [|p IH]; intros [|x l] q; cbn [skipn Nat.add nth]; auto. destruct q; auto. Qed.
  Lemma f_loc_ok (a : farr F) n : (fa_off a + n <= length (fa_mem a))%nat ->
    exists D, f_loc a n = Ok D /\ length D = n /\ forall q, (q < n)%nat -> nth q D 0 = nth (fa_off a + q) (fa_mem a) 0.
  Proof.
    intros H. unfold f_loc. destruct (Nat.leb_spec (fa_off a + n) (length (fa_mem a))); [|lia].
    eexists. split; [reflexivity|]. split; [rewrite firstn_length, skipn_length; lia|].
    intros q Hq. rewrite nth_firstn_lt by auto. apply nth_skip_add.
  Qed.

  Lemma whole_dmat (a : farr F) n D : whole a n ->
    (forall q, (q < n * n)%nat -> nth q D 0 = nth (fa_off a + q) (fa_mem a) 0) -> meq n (dmat col_major n D) (fa_mat a).
  Proof.
    intros (H1 & H2 & H3 & H4 & H5) HD i j Hi Hj. unfold dmat, fa_mat, fa_at. rewrite HD by nia. rewrite H3, H4.
    f_equal. lia.
  Qed.

  Lemma count_meq n (keep : F -> bool) (X Y : mat F) i : meq n X Y -> (i < n)%nat ->
    count n (fun j => keep (X i j)) = count n (fun j => keep (Y i j)).
  Proof.
    intros H Hi. unfold count. f_equal. apply filter_ext_in. intros j Hj. apply in_seq in Hj. rewrite H by lia. auto.
  Qed.

  Lemma f_import_ok nz t (a : farr F) n threshold m sched : whole a n ->
    import_room t (or_zero nz threshold) a n m -> Permutation (map snd sched) (seq 0 n) ->
    exists A, f_import nz t a threshold m sched = Ok A /\ bwf A /\ bml_get_type A = t /\ bml_get_N A = n /\
      forall i j, (1 <= i <= n)%nat -> (1 <= j <= n)%nat ->
        bmx A (i - 1)%nat (j - 1)%nat = kept t (or_zero nz threshold) (fa_at a i j).
  Proof.
    intros HW HR HP. pose proof HW as (H1 & H2 & H3 & H4 & H5). unfold f_import. rewrite H1.
    destruct (f_loc_ok a (n * n)) as (D & ED & LD & VD); auto.
    pose proof (whole_dmat a n D HW VD) as HM.
    assert (HZ : forall i j, (1 <= i <= n)%nat -> (1 <= j <= n)%nat -> dmat col_major n D (i - 1)%nat (j - 1)%nat = fa_at a i j).
    { intros i j Hi Hj. rewrite HM by lia. unfold fa_mat. f_equal; lia. }
    destruct t; cbn [import_room] in HR.
    - assert (exists m_, match m with Some m => Ok m | None => Ok n end = Ok (m_ : nat)) as (m_ & ->) by (destruct m; eauto).
      cbn [bind]. rewrite ED. cbn [bind bml_import_from_dense].
      destruct (dense_import_ok col_major n D LD) as (A & -> & W & EN & V). cbn [bind].
      eexists. split; [reflexivity|]. cbn [bwf bml_get_type bml_get_N bmx kept].
      split; [auto|]. split; [auto|]. split; [auto|]. intros i j Hi Hj. rewrite V by lia. auto.
    - destruct m as [m|]; [|contradiction]. cbn [bind]. rewrite ED. cbn [bind bml_import_from_dense].
      destruct HR as [Hm HR]. change (match threshold with Some k => k | None => nz end) with (or_zero nz threshold).
      destruct (ell_import_ok col_major n m (or_zero nz threshold) D sched) as (A & -> & EN & EM & W & R); auto.
      { intros i Hi. rewrite (count_meq n _ _ _ i HM Hi). auto. }
      cbn [bind]. eexists. split; [reflexivity|]. cbn [bwf bml_get_type bml_get_N bmx kept].
      split; [auto|]. split; [auto|]. split; [auto|]. intros i j Hi Hj.
      rewrite (emat_drow _ n (or_zero nz threshold) (dmat col_major n D (i - 1)%nat)) by (first [lia | apply R; lia]). rewrite HZ by auto. auto.
    - destruct m as [m|]; [|contradiction]. cbn [bind]. rewrite ED. cbn [bind bml_import_from_dense].
      change (match threshold with Some k => k | None => nz end) with (or_zero nz threshold).
      destruct (csr_import_ok col_major n m (or_zero nz threshold) D sched) as (A & -> & EN & EM & W & R); auto.
      cbn [bind]. eexists. split; [reflexivity|]. cbn [bwf bml_get_type bml_get_N bmx kept].
      split; [auto|]. split; [auto|]. split; [auto|]. intros i j Hi Hj.
      unfold cmat. rewrite R, elook_drow by lia. rewrite HZ by auto. auto.
  Qed.

  Lemma f_import_missing_m nz t (a : farr F) threshold sched : t <> FDense -> f_import nz t a threshold None sched = Err.
  Proof. destruct t; auto. congruence. Qed.

  (** an array with fewer columns than rows, at the end of its memory *)
  Lemma f_import_narrow nz t (a : farr F) threshold m sched : (fa_n2 a < fa_n1 a)%nat -> (t = FDense \/ m <> None) ->
    length (fa_mem a) = (fa_off a + fa_n1 a * fa_n2 a)%nat -> f_import nz t a threshold m sched = UB.
  Proof.
    intros H1 H2 H3. unfold f_import.
    assert (exists m_, match m, t with Some m, _ => Ok m | None, FDense => Ok (fa_n1 a) | None, _ => Err end = Ok (m_ : nat)) as (m_ & ->).
    { destruct m; eauto. destruct t; eauto; destruct H2; congruence. }
    cbn [bind]. unfold f_loc. rewrite H3. destruct (Nat.leb_spec (fa_off a + fa_n1 a * fa_n1 a) (fa_off a + fa_n1 a * fa_n2 a)); [nia|]. auto.
  Qed.

  Lemma bml_export_ok (A : bmat) o sched : bwf A -> Permutation (map snd sched) (seq 0 (bml_get_N A)) ->
    exists D, bml_export_to_dense A o sched = Ok D /\ length D = (bml_get_N A * bml_get_N A)%nat /\
      meq (bml_get_N A) (dmat o (bml_get_N A) D) (bmx A).
  Proof.
    intros W HP. destruct A as [A|A|A]; cbn [bwf bml_get_N bmx bml_export_to_dense] in *.
    - apply dense_export_ok; auto.
    - apply ell_export_ok; auto.
    - apply csr_export_ok; auto.
  Qed.

  Lemma f_export_ok (A : bmat) sched : bwf A -> Permutation (map snd sched) (seq 0 (bml_get_N A)) ->
    exists b, f_export A sched = Ok b /\ whole b (bml_get_N A) /\
      forall i j, (1 <= i <= bml_get_N A)%nat -> (1 <= j <= bml_get_N A)%nat -> fa_at b i j = bmx A (i - 1)%nat (j - 1)%nat.
  Proof.
    intros W HP. destruct (bml_export_ok A col_major sched W HP) as (D & E & L & V). unfold f_export. rewrite E. cbn [bind].
    eexists. split; [reflexivity|]. split; [unfold whole; cbn; repeat split; lia|].
    intros i j Hi Hj. rewrite <- V by lia. unfold fa_at, dmat. cbn [fa_off fa_s1 fa_s2 fa_mem]. f_equal. lia.
  Qed.

  Lemma f_round_trip nz t (a : farr F) n threshold m s1 s2 : whole a n ->
    import_room t (or_zero nz threshold) a n m -> Permutation (map snd s1) (seq 0 n) -> Permutation (map snd s2) (seq 0 n) ->
    exists A b, f_import nz t a threshold m s1 = Ok A /\ f_export A s2 = Ok b /\ whole b n /\
      forall i j, (1 <= i <= n)%nat -> (1 <= j <= n)%nat -> fa_at b i j = kept t (or_zero nz threshold) (fa_at a i j).
  Proof.
    intros HW HR H1 H2. destruct (f_import_ok nz t a n threshold m s1 HW HR H1) as (A & E & W & T & EN & V).
    destruct (f_export_ok A s2 W) as (b & Eb & Wb & Vb); [rewrite EN; auto|]. rewrite EN in *.
    exists A, b. split; auto. split; auto. split; auto. intros i j Hi Hj. rewrite Vb by auto. auto.
  Qed.

  (** ** One-based access *)
  (** element (i, j) counted from one: dense matrices, and ellpack ones in single precision *)
  Lemma f_get_element_ok p (A : bmat) i j : bwf A -> (1 <= i <= bml_get_N A)%nat -> (1 <= j <= bml_get_N A)%nat ->
    bml_get_type A = FDense \/ bml_get_type A = FEll /\ p = single_real ->
    f_get_element p A i j = Ok (bmx A (i - 1)%nat (j - 1)%nat).
  Proof.
    intros W Hi Hj HT. destruct i as [|i]; [lia|]. destruct j as [|j]; [lia|]. cbn [f_get_element].
    replace (S i - 1)%nat with i by lia. replace (S j - 1)%nat with j by lia.
    destruct A as [A|A|A]; cbn [bwf bml_get_N bml_get_type bmx] in *.
    - apply dense_typed_ok; auto; lia.
    - destruct HT as [HT|[_ ->]]; [discriminate|]. apply ell_single_ok; auto; lia.
    - destruct HT as [HT|[HT _]]; discriminate.
  Qed.
  Lemma f_get_row_ok (A : bmat) i : bwf A -> (1 <= i <= bml_get_N A)%nat ->
    f_get_row A i = Ok (map (fun j => bmx A (i - 1)%nat (j - 1)%nat) (seq 1 (bml_get_N A))).
  Proof.
    intros W Hi. destruct i as [|i]; [lia|]. cbn [f_get_row]. rewrite bml_get_row_ok by (auto; lia). f_equal.
    rewrite <- seq_shift, map_map. apply map_ext. intros j. f_equal; lia.
  Qed.
  Lemma f_get_diagonal_ok (A : bmat) : bwf A ->
    f_get_diagonal A = Ok (map (fun i => bmx A (i - 1)%nat (i - 1)%nat) (seq 1 (bml_get_N A))).
  Proof.
    intros W. unfold f_get_diagonal. rewrite bml_get_diagonal_ok by auto. f_equal.
    rewrite <- seq_shift, map_map. apply map_ext. intros j. f_equal; lia.
  Qed.
  Lemma f_set_element_ok (A : bmat) i j (x : F) : bwf A -> (1 <= i <= bml_get_N A)%nat -> (1 <= j <= bml_get_N A)%nat ->
    set_element_room A (i - 1) (j - 1) ->
    exists A', f_set_element A i j x = Ok A' /\ bwf A' /\ like A A' /\
      forall r c, (1 <= r <= bml_get_N A)%nat -> (1 <= c <= bml_get_N A)%nat ->
        bmx A' (r - 1)%nat (c - 1)%nat = if ((r =? i) && (c =? j))%nat then x else bmx A (r - 1)%nat (c - 1)%nat.
  Proof.
    intros W Hi Hj HR. destruct i as [|i]; [lia|]. destruct j as [|j]; [lia|]. cbn [f_set_element].
    replace (S i - 1)%nat with i in HR by lia. replace (S j - 1)%nat with j in HR by lia.
    assert (HE : forall r c, (1 <= r)%nat -> (1 <= c)%nat -> ((r - 1 =? i) && (c - 1 =? j))%nat = ((r =? S i) && (c =? S j))%nat).
    { intros r c Hr Hc. f_equal; [destruct (Nat.eqb_spec (r - 1) i), (Nat.eqb_spec r (S i))|destruct (Nat.eqb_spec (c - 1) j), (Nat.eqb_spec c (S j))]; auto; lia. }
    destruct A as [A|A|A]; cbn [bwf bml_get_N bml_set_element set_element_room] in *.
    - destruct (dense_set_element_ok A i j x W) as (A' & -> & W' & D & V); [lia|lia|]. cbn [bind]. eexists. split; [reflexivity|].
      split; [exact W'|]. split; [split; [split|]; cbn; congruence|]. intros r c Hr Hc. cbn [bmx]. rewrite V, HE by lia. auto.
    - destruct (ell_set_element_ok A i j x W) as (A' & -> & W' & D & V); [lia|lia|tauto|tauto|]. cbn [bind]. eexists. split; [reflexivity|].
      split; [exact W'|]. destruct D as [D1 D2]. split; [split; [split|]; cbn; congruence|]. intros r c Hr Hc. cbn [bmx]. rewrite V, HE by lia. auto.
    - destruct (cset_element_spec A i j x W) as (A' & -> & W' & D & V); [lia|lia|]. cbn [bind]. eexists. split; [reflexivity|].
      split; [exact W'|]. destruct D as [D1 D2]. split; [split; [split|]; cbn; congruence|]. intros r c Hr Hc. cbn [bmx]. rewrite V, HE by lia. auto.
  Qed.

  Lemma f_set_row_ok nz (A : bmat) i (row : list F) threshold : bwf A -> (1 <= i <= bml_get_N A)%nat -> length row = bml_get_N A ->
    set_row_room (or_zero nz threshold) A row ->
    exists A', f_set_row nz A i row threshold = Ok A' /\ bwf A' /\ like A A' /\
      f_get_row A' i = Ok (map (kept (bml_get_type A) (or_zero nz threshold)) row) /\
      forall r, (1 <= r <= bml_get_N A)%nat -> r <> i -> f_get_row A' r = f_get_row A r.
  Proof.
    intros W Hi HL HR. destruct i as [|i]; [lia|]. cbn [f_set_row].
    change (match threshold with Some k => k | None => nz end) with (or_zero nz threshold).
    destruct A as [A|A|A]; cbn [bwf bml_get_N bml_set_row set_row_room bml_get_type kept] in *.
    - destruct (dense_set_row_ok A i row W) as (A' & -> & W' & D & V); [lia|lia|]. cbn [bind]. eexists. split; [reflexivity|].
      split; [exact W'|]. split; [split; [split|]; cbn; congruence|]. cbn [f_get_row bml_get_row].
      rewrite map_id. split.
      + rewrite dense_get_row_ok by (auto; lia). f_equal. apply (list_ext_nth _ _ 0).
        * rewrite map_length, seq_length. lia.
        * intros q Hq. rewrite map_length, seq_length in Hq. rewrite nth_map_seq by lia. rewrite V by lia. rewrite Nat.eqb_refl. auto.
      + intros [|r] Hr Hne; [lia|]. cbn [f_get_row bml_get_row]. rewrite !dense_get_row_ok by (auto; lia). rewrite D. f_equal.
        apply map_ext_in. intros q Hq. apply in_seq in Hq. rewrite V by lia. destruct (Nat.eqb_spec r i); [lia|auto].
    - destruct (set_row_spec (or_zero nz threshold) A i row W) as (A' & -> & W' & D & V1 & V2); auto; [lia|]. cbn [bind]. eexists. split; [reflexivity|].
      split; [exact W'|]. destruct D as [D1 D2]. split; [split; [split|]; cbn; congruence|]. cbn [f_get_row bml_get_row].
      split; auto. intros [|r] Hr Hne; [lia|]. cbn [f_get_row bml_get_row]. apply V2; lia.
    - destruct (cset_row_spec (or_zero nz threshold) A i row W) as (A' & -> & W' & D & V1 & V2); auto; [lia|]. cbn [bind]. eexists. split; [reflexivity|].
      split; [exact W'|]. destruct D as [D1 D2]. split; [split; [split|]; cbn; congruence|]. cbn [f_get_row bml_get_row].
      split; auto. intros [|r] Hr Hne; [lia|]. cbn [f_get_row bml_get_row]. apply V2; lia.
  Qed.
End FortranFacts.
