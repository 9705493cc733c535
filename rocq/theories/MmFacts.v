(** Proofs about the Matrix Market readers and writers. *)
From Verif Require Import Base BaseFacts Spec SpecFacts EllpackModel EllpackSpec EllpackFacts CsrModel CsrSpec CsrFacts CsrMore
  DenseModel DenseSpec DenseFacts SubIndex SubBlock SubSame EllblockModel EllblockSpec EllblockFacts EllblockHeap EllblockRead EllblockBuild
  MmModel MmSpec.

Section MmFacts.
  Context {F : scalar}.
  Local Notation ell := (ell F).
  Local Notation dense := (dense F).
  Local Notation csr := (csr F).
  Local Notation eb := (eb F).
  Local Notation cell := (nat * nat * F)%type.
  Implicit Types (f : mmfile F) (L : list cell).

  (** ** Lists of cells *)
  Lemma cell_get_in L i j v : NoDup (map fst L) -> In (i, j, v) L -> cell_get L i j = Some v.
  Proof.
    unfold cell_get. induction L as [|[[a b] w] L IH]; [intros _ []|]. cbn [map fst find]. intros ND Hin. inversion ND as [|x l Hx ND' E]; subst.
    unfold at_cell at 1. cbn [fst snd]. destruct Hin as [E|Hin].
    - injection E as -> -> ->. rewrite !Nat.eqb_refl. reflexivity.
    - destruct (Nat.eqb_spec a i) as [->|]; [|cbn; auto]. destruct (Nat.eqb_spec b j) as [->|]; [|cbn; auto].
      exfalso. apply Hx. apply (in_map fst) in Hin. exact Hin.
  Qed.
  Lemma cell_get_some L i j v : cell_get L i j = Some v -> In (i, j, v) L.
  Proof.
    unfold cell_get. destruct (find (at_cell i j) L) as [[[a b] w]|] eqn:E; [|discriminate]. intros Q. injection Q as ->.
    apply find_some in E as [H1 H2]. unfold at_cell in H2. cbn [fst snd] in H2. apply andb_prop in H2 as [H2 H3].
    apply Nat.eqb_eq in H2, H3. subst. exact H1.
  Qed.
  Lemma cell_get_none L i j : ~ In (i, j) (map fst L) -> cell_get L i j = None.
  Proof. intros H. destruct (cell_get L i j) as [v|] eqn:E; auto. exfalso. apply H. apply cell_get_some in E. apply (in_map fst) in E. exact E. Qed.
  Lemma cell_get_none_inv L i j : NoDup (map fst L) -> cell_get L i j = None -> ~ In (i, j) (map fst L).
  Proof.
    intros ND E H. apply in_map_iff in H as ([[a b] v] & Q & H). cbn [fst] in Q. injection Q as -> ->. rewrite (cell_get_in L i j v) in E by auto. discriminate.
  Qed.
  Lemma cell_get_snoc L i j v a b : ~ In (i, j) (map fst L) ->
    cell_get (L ++ [(i, j, v)]) a b = if ((a =? i) && (b =? j))%bool then Some v else cell_get L a b.
  Proof.
    intros Hn. unfold cell_get. induction L as [|[[x y] w] L IH].
    - cbn [app find]. unfold at_cell. cbn [fst snd]. rewrite (Nat.eqb_sym i a), (Nat.eqb_sym j b). destruct ((a =? i) && (b =? j))%bool; reflexivity.
    - cbn [app find map fst In] in *. unfold at_cell at 1 3. cbn [fst snd]. destruct ((x =? a) && (y =? b))%bool eqn:E.
      + apply andb_prop in E as [E1 E2]. apply Nat.eqb_eq in E1, E2. subst. destruct ((a =? i) && (b =? j))%bool eqn:E; auto.
        apply andb_prop in E as [E1 E2]. apply Nat.eqb_eq in E1, E2. subst. tauto.
      + apply IH. tauto.
  Qed.

  Lemma NoDup_map_on {X Y} (h : X -> Y) l : (forall x y, In x l -> In y l -> h x = h y -> x = y) -> NoDup l -> NoDup (map h l).
  Proof.
    induction l as [|x l IH]; intros H ND; [constructor|]. inversion ND as [|? ? Hx ND' E]; subst. cbn [map]. constructor.
    - intros Hin. apply in_map_iff in Hin as (y & E & Hy). apply Hx. rewrite (H x y); auto; [left|right]; auto.
    - apply IH; auto. intros a b Ha Hb. apply H; right; auto.
  Qed.
  Lemma NoDup_flat_map_intro {X Y} (h : X -> list Y) l : NoDup l -> (forall x, In x l -> NoDup (h x)) ->
    (forall x y z, In x l -> In y l -> In z (h x) -> In z (h y) -> x = y) -> NoDup (flat_map h l).
  Proof.
    induction l as [|x l IH]; intros ND H1 H2; [constructor|]. inversion ND as [|? ? Hx ND' E]; subst. cbn [flat_map].
    apply NoDup_app_intro.
    - apply H1. left. auto.
    - apply IH; auto; intros; [apply H1; right; auto|]. eapply H2; eauto; right; auto.
    - intros z Hz Hz2. apply in_flat_map in Hz2 as (y & Hy & Hz2). apply Hx. rewrite (H2 x y z); auto; [left|right]; auto.
  Qed.

  (** ** What a writer produces *)
  (** L lists cells of X, no cell twice, and all that are not zero *)
  Definition repr (N : nat) (X : mat F) L : Prop :=
    NoDup (map fst L) /\ (forall i j v, In (i, j, v) L -> i < N /\ j < N /\ X i j = v) /\
    (forall i j, i < N -> j < N -> ~ In (i, j) (map fst L) -> X i j = k0).
  Definition enc (fmt : F -> F) (e : cell) : cell := (fst (fst e) + 1, snd (fst e) + 1, fmt (snd e)).
  Definition wfile (fmt : F -> F) (N : nat) L : mmfile F := mkMm false N (length L) (map (enc fmt) L).

  Lemma wfile_cells fmt N L : mm_cells (wfile fmt N L) = map (fun e => (fst e, fmt (snd e))) L.
  Proof.
    unfold mm_cells, wfile. cbn [mm_sym mm_ents]. cbn [andb]. induction L as [|[[i j] v] L IH]; [reflexivity|].
    cbn [map flat_map]. unfold enc at 1. cbn [fst snd app]. rewrite IH. rewrite !Nat.add_sub. reflexivity.
  Qed.
  Lemma wfile_ok fmt N X L : repr N X L -> fmt k0 = k0 ->
    mm_good N (wfile fmt N L) /\ meq N (mm_mat (wfile fmt N L)) (fun i j => fmt (X i j)).
  Proof.
    intros (R1 & R2 & R3) H0.
    assert (ND : NoDup (map fst (mm_cells (wfile fmt N L)))). { rewrite wfile_cells, map_map. exact R1. }
    split.
    - split; [reflexivity|]. split; [unfold wfile; cbn [mm_nnz mm_ents]; rewrite map_length; reflexivity|]. split; [|exact ND].
      intros r c v H. unfold wfile in H. cbn [mm_ents] in H. apply in_map_iff in H as ([[i j] w] & E & H). unfold enc in E. cbn [fst snd] in E.
      injection E as <- <- <-. destruct (R2 _ _ _ H) as (? & ? & _). lia.
    - intros i j Hi Hj. unfold mm_mat. destruct (cell_get _ i j) as [v|] eqn:E.
      + apply cell_get_some in E. rewrite wfile_cells in E. apply in_map_iff in E as ([[a b] w] & E & H). cbn [fst snd] in E. injection E as -> -> <-.
        destruct (R2 _ _ _ H) as (_ & _ & ->). reflexivity.
      + apply cell_get_none_inv in E; auto. rewrite wfile_cells, map_map in E. rewrite R3 by auto. auto.
  Qed.

  (** a matrix given by rows *)
  Definition rowL (R : nat -> list (nat * F)) (i : nat) : list cell := map (fun kv => (i, fst kv, snd kv)) (R i).
  Definition rowsL (R : nat -> list (nat * F)) (N : nat) : list cell := flat_map (rowL R) (seq 0 N).
  Lemma rowsL_in R N i j v : In (i, j, v) (rowsL R N) <-> i < N /\ In (j, v) (R i).
  Proof.
    unfold rowsL, rowL. rewrite in_flat_map. split.
    - intros (x & Hx & H). apply in_map_iff in H as ([k w] & E & H). cbn [fst snd] in E. injection E as -> -> ->. apply in_seq in Hx. split; [lia|auto].
    - intros [Hi H]. exists i. split; [apply in_seq; lia|]. apply in_map_iff. exists (j, v). auto.
  Qed.
  Lemma rowsL_S R n : rowsL R (S n) = rowsL R n ++ rowL R n.
  Proof. unfold rowsL. rewrite seq_S, flat_map_app. cbn [flat_map plus]. rewrite app_nil_r. reflexivity. Qed.
  Lemma rowsL_repr R N (X : mat F) : (forall i, i < N -> NoDup (cols (R i)) /\ (forall k, In k (cols (R i)) -> k < N)) ->
    (forall i j, i < N -> j < N -> X i j = elook (R i) j) -> repr N X (rowsL R N).
  Proof.
    intros HR HX. split; [|split].
    - unfold rowsL. rewrite flat_map_concat_map, concat_map, map_map, <- flat_map_concat_map. apply NoDup_flat_map_intro; [apply seq_NoDup| |].
      + intros i Hi. apply in_seq in Hi. unfold rowL. rewrite map_map. cbn [fst]. destruct (HR i) as [ND _]; [lia|].
        clear -ND. induction (R i) as [|[k v] E IH]; [constructor|]. cbn [map fst cols] in *. inversion ND as [|? ? Hx ND' Q]; subst. constructor; auto.
        intros H. apply Hx. apply in_map_iff in H as (kv & E1 & H). injection E1 as E1. subst k. apply (in_map fst) in H. exact H.
      + intros x y z _ _ H1 H2. unfold rowL in *. rewrite map_map in H1, H2. apply in_map_iff in H1 as (? & <- & _). apply in_map_iff in H2 as (? & E & _). cbn in E. congruence.
    - intros i j v H. apply rowsL_in in H as [Hi H]. destruct (HR i Hi) as [H1 H2]. assert (Hj : j < N). { apply H2. apply (in_map fst) in H. exact H. }
      split; [auto|]. split; [auto|]. rewrite HX by auto. apply elook_in; auto.
    - intros i j Hi Hj H. rewrite HX by auto. apply elook_notin. intros Hc. apply H. apply in_map_iff in Hc as ([k v] & E & Hc). cbn in E. subst k.
      apply in_map_iff. exists (i, j, v). split; auto. apply rowsL_in. auto.
  Qed.
  Lemma rowsL_length R N : length (rowsL R N) = nsum N (fun i => length (R i)).
  Proof. induction N as [|n IH]; [reflexivity|]. rewrite rowsL_S, app_length, IH. unfold rowL. rewrite map_length. reflexivity. Qed.

  (** a loop over the rows that appends the entries *)
  Lemma rows_loop {e} R N fmt (body : nat -> list cell -> res (list cell)) :
    (forall i out, i < N -> body i out = Ok (out ++ map (enc fmt) (rowL R i))) ->
    wpq e (for_n N body []) (fun out => out = map (enc fmt) (rowsL R N)).
  Proof.
    intros H. apply (for_n_inv (fun n out => out = map (enc fmt) (rowsL R n))); [reflexivity|].
    intros i out Hi ->. rewrite H by auto. cbn [wpq]. rewrite rowsL_S, map_app. reflexivity.
  Qed.
  Lemma append_row fmt i (E : list (nat * F)) out :
    forM E (fun kv (out : list cell) => Ok (out ++ [(i + 1, fst kv + 1, fmt (snd kv))])) out = Ok (out ++ map (enc fmt) (map (fun kv => (i, fst kv, snd kv)) E)).
  Proof.
    revert out. induction E as [|[k v] E IH]; intros out; [cbn; rewrite app_nil_r; reflexivity|].
    cbn [forM map fst snd bind]. rewrite IH. rewrite <- app_assoc. reflexivity.
  Qed.
  Lemma count_loop {e} N (h : nat -> nat) (body : nat -> nat -> res nat) : (forall i m, i < N -> body i m = Ok (m + h i)) ->
    wpq e (for_n N body 0) (fun m => m = nsum N h).
  Proof. intros H. apply (for_n_inv (fun n m => m = nsum n h)); [reflexivity|]. intros i m Hi ->. rewrite H by auto. reflexivity. Qed.

  Theorem ell_write_file fmt (A : ell) : wf A -> ell_write fmt A = Ok (wfile fmt (eN A) (rowsL (erow A) (eN A))).
  Proof.
    intros [HS HR]. apply wp_eq. unfold ell_write. apply wp_bind.
    eapply wp_mono. { apply (count_loop _ (fun i => length (erow A i))). intros i m Hi. rewrite e_nnz_ok by auto. cbn [bind]. rewrite erow_length. reflexivity. }
    intros m ->. apply wp_bind. eapply wp_mono.
    { apply (rows_loop (erow A) _ fmt). intros i out Hi. rewrite e_for_row_eq; auto; [|rewrite <- erow_length; apply HR; auto]. apply append_row. }
    intros out ->. cbn [wpq]. unfold wfile. rewrite rowsL_length. reflexivity.
  Qed.
  Lemma ell_repr (A : ell) : wf A -> repr (eN A) (emat A) (rowsL (erow A) (eN A)).
  Proof. intros [HS HR]. apply rowsL_repr; [|reflexivity]. intros i Hi. split; apply HR; auto. Qed.

  Theorem csr_write_file fmt (A : csr) : cwf A -> csr_write fmt A = Ok (wfile fmt (cN A) (rowsL (crow A) (cN A))).
  Proof.
    intros [HS HR]. pose proof HS as [HL HI]. apply wp_eq. unfold csr_write. apply wp_bind.
    eapply wp_mono. { apply (count_loop _ (fun i => length (crow A i))). intros i m Hi. rewrite c_row_ok by lia. cbn [bind].
      destruct (cshape_is A i HS Hi) as (pad & _ & E & _). rewrite E. reflexivity. }
    intros m ->. apply wp_bind. eapply wp_mono.
    { apply (rows_loop (crow A) _ fmt). intros i out Hi. rewrite c_row_ok by lia. cbn [bind]. rewrite (r_for_eq _ (crow A i)) by (apply cshape_is; auto). apply append_row. }
    intros out ->. cbn [wpq]. unfold wfile. rewrite rowsL_length. reflexivity.
  Qed.
  Lemma csr_repr (A : csr) : cwf A -> repr (cN A) (cmat A) (rowsL (crow A) (cN A)).
  Proof. intros [HS HR]. apply rowsL_repr; [|reflexivity]. intros i Hi. split; apply HR; auto. Qed.

  (** the entries of a dense row that are not zero *)
  Definition nzrow (A : dense) (i n : nat) : list (nat * F) :=
    filter (fun kv => negb (keqb (snd kv) k0)) (map (fun j => (j, denm A i j)) (seq 0 n)).
  Lemma nzrow_S A i n : nzrow A i (S n) = nzrow A i n ++ (if negb (keqb (denm A i n) k0) then [(n, denm A i n)] else []).
  Proof. unfold nzrow. rewrite seq_S, map_app, filter_app. reflexivity. Qed.
  Lemma nzrow_in A i n j v : In (j, v) (nzrow A i n) <-> j < n /\ v = denm A i j /\ v <> k0.
  Proof.
    unfold nzrow. rewrite filter_In, in_map_iff. split.
    - intros ((x & E & Hx) & H). injection E as -> <-. apply in_seq in Hx. cbn [snd] in H. split; [lia|]. split; auto. intros Q. rewrite Q, keqb_refl in H. discriminate.
    - intros (Hj & -> & Hn). split; [exists j; split; auto; apply in_seq; lia|]. cbn [snd]. destruct (keqb (denm A i j) k0) eqn:Q; auto. apply keqb_spec in Q. contradiction.
  Qed.
  Lemma nzrow_nodup A i n : NoDup (cols (nzrow A i n)).
  Proof.
    induction n as [|n IH]; [constructor|]. rewrite nzrow_S. unfold cols. rewrite map_app. apply NoDup_app_intro; auto.
    - destruct (negb _); cbn; repeat constructor; auto.
    - intros k Hk Hk2. apply in_map_iff in Hk as ([k' v] & <- & Hk). apply nzrow_in in Hk as [Hk _]. cbn [fst] in *. destruct (negb _); cbn in Hk2; [destruct Hk2 as [E|[]]; lia|tauto].
  Qed.
  Lemma dense_repr (A : dense) : repr (dN A) (denm A) (rowsL (fun i => nzrow A i (dN A)) (dN A)).
  Proof.
    apply rowsL_repr.
    - intros i Hi. split; [apply nzrow_nodup|]. intros k Hk. apply in_map_iff in Hk as ([k' v] & <- & Hk). apply nzrow_in in Hk. cbn. tauto.
    - intros i j Hi Hj. destruct (keqb (denm A i j) k0) eqn:E.
      + apply keqb_spec in E. rewrite E. symmetry. apply elook_notin. intros Hk. apply in_map_iff in Hk as ([k' v] & Q & Hk). cbn in Q. subst k'.
        apply nzrow_in in Hk as (_ & E1 & E2). congruence.
      + symmetry. apply elook_in; [apply nzrow_nodup|]. apply nzrow_in. split; auto. split; auto. intros Q. rewrite Q, keqb_refl in E. discriminate.
  Qed.
  Theorem dense_write_file fmt (A : dense) : dwf A -> dense_write fmt A = Ok (wfile fmt (dN A) (rowsL (fun i => nzrow A i (dN A)) (dN A))).
  Proof.
    intros HD. apply wp_eq. unfold dense_write. apply wp_bind.
    eapply wp_mono. { apply (count_loop _ (fun i => length (nzrow A i (dN A)))). intros i m Hi.
      apply wp_eq. apply (for_n_inv (fun n x => x = m + length (nzrow A i n))); [cbn; lia|].
      intros j x Hj ->. rewrite d_at_ok by auto. cbn [bind wpq]. rewrite nzrow_S, app_length. destruct (negb _); cbn [length]; lia. }
    intros m ->. apply wp_bind. eapply wp_mono.
    { apply (rows_loop (fun i => nzrow A i (dN A)) _ fmt). intros i out Hi. unfold rowL.
      apply wp_eq. apply (for_n_inv (fun n x => x = out ++ map (enc fmt) (map (fun kv => (i, fst kv, snd kv)) (nzrow A i n)))); [cbn; rewrite app_nil_r; auto|].
      intros j x Hj ->. rewrite d_at_ok by auto. cbn [bind wpq]. rewrite nzrow_S. destruct (negb _).
      - rewrite !map_app, app_assoc. reflexivity.
      - rewrite app_nil_r. reflexivity. }
    intros out ->. cbn [wpq]. unfold wfile. rewrite rowsL_length. reflexivity.
  Qed.

  (** ** What a reader does *)
  Lemma mm_for_ok {S} f (body : nat -> nat -> F -> S -> res S) s : mm_nnz f = length (mm_ents f) ->
    mm_for f body s = forM (mm_ents f) (fun e => body (fst (fst e)) (snd (fst e)) (snd e)) s.
  Proof.
    intros H. unfold mm_for. rewrite H. destruct f as [sy n z es]. cbn [mm_ents mm_nnz] in *. clear H z.
    destruct es as [|e0 es']; [reflexivity|]. set (es := e0 :: es'). rewrite <- (for_n_nth es e0 (fun e => body (fst (fst e)) (snd (fst e)) (snd e))).
    apply for_n_ext. intros i s0 Hi. rewrite (nth_error_nth' es e0) by auto. destruct (nth i es e0) as [[r c] v]. reflexivity.
  Qed.
  (** a file that ends before the announced number of entries is never accepted *)
  Lemma mm_for_short {S} f (body : nat -> nat -> F -> S -> res S) s s' : length (mm_ents f) < mm_nnz f -> mm_for f body s <> Ok s'.
  Proof.
    intros H. unfold mm_for. set (b := fun i s => match nth_error (mm_ents f) i with None => Err | Some e => _ end).
    intros E. assert (G : forall n s1, for_n n b s = Ok s1 -> n <= length (mm_ents f)).
    { induction n as [|n IH]; intros s1 E1; [lia|]. rewrite for_n_S in E1. destruct (for_n n b s) as [s2| | |] eqn:E2; try discriminate. cbn [bind] in E1.
      unfold b in E1. destruct (nth_error (mm_ents f) n) eqn:E3; [|discriminate]. assert (n < length (mm_ents f)) by (apply nth_error_Some; congruence). lia. }
    apply G in E. lia.
  Qed.

  Definition pushes {S} f (push : nat -> nat -> F -> S -> res S) (e : cell) (s : S) : res S :=
    irow <- dec (fst (fst e)) ;; icol <- dec (snd (fst e)) ;; s <- push irow icol (snd e) s ;;
    if mm_sym f && negb (icol =? irow) then push icol irow (snd e) s else Ok s.
  Lemma pushes_cells {S} n f (push : nat -> nat -> F -> S -> res S) s : mm_good n f ->
    forM (mm_ents f) (pushes f push) s = forM (mm_cells f) (fun e => push (fst (fst e)) (snd (fst e)) (snd e)) s.
  Proof.
    intros (_ & _ & HR & _). unfold mm_cells. rewrite forM_flat_map.
    assert (G : forall l, (forall r c v, In (r, c, v) l -> 1 <= r <= n /\ 1 <= c <= n) -> forall s, forM l (pushes f push) s = forM l (fun e s => forM
      (let '(r, c, v) := e in (r - 1, c - 1, v) :: (if mm_sym f && negb (c =? r) then [(c - 1, r - 1, v)] else [])) (fun e0 => push (fst (fst e0)) (snd (fst e0)) (snd e0)) s) s).
    { induction l as [|[[r c] v] l IH]; intros Hl s0; [reflexivity|]. cbn [forM].
      assert (E : pushes f push (r, c, v) s0 = forM ((r - 1, c - 1, v) :: (if mm_sym f && negb (c =? r) then [(c - 1, r - 1, v)] else [])) (fun e0 => push (fst (fst e0)) (snd (fst e0)) (snd e0)) s0).
      { destruct (Hl r c v) as [Hr Hc]; [left; auto|]. destruct r as [|r]; [lia|]. destruct c as [|c]; [lia|]. unfold pushes. cbn [fst snd dec bind forM Nat.eqb].
        rewrite !Nat.sub_succ, !Nat.sub_0_r. destruct (push r c v s0); cbn [bind]; auto. destruct (mm_sym f && negb (c =? r)); cbn [forM fst snd bind]; auto. destruct (push c r v a); auto. }
      rewrite E. match goal with |- bind ?x _ = bind ?y _ => change y with x; destruct x end; cbn [bind]; auto. apply IH. intros. apply (Hl r0 c0 v0). right. auto. }
    apply G. auto.
  Qed.
  Lemma cells_range n f i j v : mm_good n f -> In (i, j, v) (mm_cells f) -> i < n /\ j < n.
  Proof.
    intros (_ & _ & HR & _) H. unfold mm_cells in H. apply in_flat_map in H as ([[r c] w] & H1 & H2). destruct (HR _ _ _ H1). destruct H2 as [E|H2].
    - injection E as <- <- <-. lia.
    - destruct (mm_sym f && negb (c =? r))%bool; [|destruct H2]. destruct H2 as [E|[]]. injection E as <- <- <-. lia.
  Qed.

  (** the entries of row i of a list of cells *)
  Definition at_row L (i : nat) : list (nat * F) := map (fun e => (snd (fst e), snd e)) (filter (fun e => fst (fst e) =? i) L).
  Lemma at_row_app L L' i : at_row (L ++ L') i = at_row L i ++ at_row L' i.
  Proof. unfold at_row. rewrite filter_app, map_app. reflexivity. Qed.
  Lemma at_row_one i j v r : at_row [(i, j, v)] r = if r =? i then [(j, v)] else [].
  Proof. unfold at_row. cbn [filter fst]. rewrite (Nat.eqb_sym i r). destruct (r =? i); reflexivity. Qed.
  Lemma at_row_in L i j v : In (j, v) (at_row L i) <-> In (i, j, v) L.
  Proof.
    unfold at_row. rewrite in_map_iff. split.
    - intros ([[a b] w] & E & H). cbn [fst snd] in E. injection E as -> ->. apply filter_In in H as [H E]. cbn [fst] in E. apply Nat.eqb_eq in E. subst. auto.
    - intros H. exists (i, j, v). split; auto. apply filter_In. split; auto. cbn. apply Nat.eqb_refl.
  Qed.
  Lemma at_row_cols L i j : In j (cols (at_row L i)) <-> In (i, j) (map fst L).
  Proof.
    unfold cols. rewrite !in_map_iff. split.
    - intros ([k v] & <- & H). exists (i, k, v). split; auto. apply at_row_in. auto.
    - intros ([[a b] v] & E & H). cbn in E. injection E as -> ->. exists (j, v). split; auto. apply at_row_in. auto.
  Qed.
  Lemma at_row_nodup L i : NoDup (map fst L) -> NoDup (cols (at_row L i)).
  Proof.
    induction L as [|[[a b] v] L IH]; [constructor|]. cbn [map fst]. intros ND. inversion ND as [|? ? Hx ND' E]; subst.
    unfold at_row. cbn [filter fst]. destruct (Nat.eqb_spec a i) as [->|]; [|apply IH; auto]. cbn [map cols fst snd]. constructor; [|apply IH; auto].
    rewrite <- at_row_cols in Hx. exact Hx.
  Qed.
  Lemma at_row_look L i j : NoDup (map fst L) -> elook (at_row L i) j = match cell_get L i j with Some v => v | None => k0 end.
  Proof.
    intros ND. destruct (cell_get L i j) as [v|] eqn:E.
    - apply elook_in; [apply at_row_nodup; auto|]. apply at_row_in. apply cell_get_some. auto.
    - apply elook_notin. rewrite at_row_cols. apply cell_get_none_inv; auto.
  Qed.
  Lemma at_row_length f i : length (at_row (mm_cells f) i) = mm_row_count f i.
  Proof. unfold at_row, mm_row_count. apply map_length. Qed.

  (** rows E followed by the cells of the file *)
  Lemma joined n f (R : nat -> list (nat * F)) : mm_good n f ->
    (forall i, i < n -> NoDup (cols (R i)) /\ forall k, In k (cols (R i)) -> k < n) ->
    (forall i j v, In (i, j, v) (mm_cells f) -> ~ In j (cols (R i))) ->
    (forall i, i < n -> NoDup (cols (R i ++ at_row (mm_cells f) i)) /\ forall k, In k (cols (R i ++ at_row (mm_cells f) i)) -> k < n) /\
    forall i j, i < n -> j < n -> elook (R i ++ at_row (mm_cells f) i) j = match cell_get (mm_cells f) i j with Some v => v | None => elook (R i) j end.
  Proof.
    intros HG HR HD. pose proof HG as (_ & _ & _ & ND). split.
    - intros i Hi. destruct (HR i Hi) as [N1 N2]. split.
      + unfold cols. rewrite map_app. apply NoDup_app_intro; auto; [apply at_row_nodup; auto|].
        intros k Hk Hk2. fold (cols (at_row (mm_cells f) i)) in Hk2. apply at_row_cols in Hk2. apply in_map_iff in Hk2 as ([[a b] v] & E & H). cbn in E. injection E as -> ->.
        apply (HD i k v); auto.
      + intros k. unfold cols. rewrite map_app. intros Hk. apply in_app_or in Hk as [Hk|Hk]; auto. fold (cols (at_row (mm_cells f) i)) in Hk. apply at_row_cols in Hk.
        apply in_map_iff in Hk as ([[a b] v] & E & H). cbn in E. injection E as -> ->. apply (cells_range n f i k v); auto.
    - intros i j Hi Hj. rewrite elook_app. rewrite at_row_look by auto. destruct (existsb (Nat.eqb j) (cols (R i))) eqn:E.
      + destruct (cell_get (mm_cells f) i j) as [v|] eqn:E2; auto. apply cell_get_some in E2. exfalso. apply (HD i j v); auto.
        apply existsb_eqb in E. exact E.
      + destruct (cell_get (mm_cells f) i j) as [v|] eqn:E2; auto. symmetry. apply elook_notin. apply existsb_eqb_false in E. exact E.
  Qed.

  Theorem ell_read_ok (A : ell) f : wf A -> mm_good (eN A) f ->
    (forall i j v, In (i, j, v) (mm_cells f) -> stored A i j = false) ->
    (forall i, i < eN A -> length (erow A i) + mm_row_count f i <= eM A) ->
    exists A', ell_read A f = Ok A' /\ wf A' /\ eN A' = eN A /\ eM A' = eM A /\
      meq (eN A) (emat A') (fun i j => match cell_get (mm_cells f) i j with Some v => v | None => emat A i j end).
  Proof.
    intros HW HG HD HC. pose proof HG as (_ & HL & _ & ND). unfold ell_read. rewrite mm_for_ok by auto.
    rewrite (forM_ext _ _ (pushes f (fun i j v A => e_push A i j v))) by (intros [[r c] v] s; reflexivity).
    rewrite (pushes_cells (eN A)) by auto.
    assert (G : wp (forM (mm_cells f) (fun e A => e_push A (fst (fst e)) (snd (fst e)) (snd e)) A)
      (holds (eN A) (eM A) (fun i => erow A i ++ at_row (mm_cells f) i))).
    { apply (forM_inv (fun pre A' => holds (eN A) (eM A) (fun i => erow A i ++ at_row pre i) A')).
      - eapply holds_ext; [|apply holds_wf; auto]. intros i Hi. unfold at_row. cbn. rewrite app_nil_r. reflexivity.
      - intros pre [[i j] v] post B E HB. cbn [fst snd]. destruct (cells_range (eN A) f i j v) as [Hi Hj]; auto. { rewrite E. apply in_or_app. right. left. auto. }
        eapply wp_mono; [apply holds_push; [exact HB|auto|]|].
        + cbn beta. specialize (HC i Hi). rewrite <- at_row_length, E, at_row_app, app_length in HC. rewrite app_length. unfold at_row at 2 in HC. cbn [filter fst] in HC. rewrite Nat.eqb_refl in HC. cbn [map length] in HC. lia.
        + intros B' HB'. eapply holds_ext; [|exact HB']. intros r Hr. unfold plus_at. rewrite at_row_app, at_row_one.
          destruct (Nat.eqb_spec r i) as [->|]; rewrite ?app_nil_r, ?app_assoc; reflexivity. }
    apply wp_ok in G as (A' & E & HA'). exists A'. split; [exact E|].
    destruct (joined (eN A) f (erow A)) as [J1 J2]; auto.
    { intros i Hi. split; apply HW; auto. }
    { intros i j v H Hc. apply HD in H. apply stored_iff in Hc. congruence. }
    split; [eapply holds_is_wf; eauto|]. split; [apply HA'|]. split; [apply HA'|]. intros i j Hi Hj. rewrite (holds_mat _ _ _ _ _ _ HA') by auto. rewrite J2 by auto. reflexivity.
  Qed.

  Theorem csr_read_ok (A : csr) f : cwf A -> mm_good (cN A) f ->
    (forall i j v, In (i, j, v) (mm_cells f) -> ~ In j (cols (crow A i))) ->
    exists A', csr_read A f = Ok A' /\ cwf A' /\ cdims A A' /\
      meq (cN A) (cmat A') (fun i j => match cell_get (mm_cells f) i j with Some v => v | None => cmat A i j end).
  Proof.
    intros HW HG HD. pose proof HG as (_ & HL & _ & ND). unfold csr_read. rewrite mm_for_ok by auto.
    rewrite (forM_ext _ _ (pushes f (fun i j v A => csr_set_element_new A i j v))) by (intros [[r c] v] s; reflexivity).
    rewrite (pushes_cells (cN A)) by auto.
    assert (G : wp (forM (mm_cells f) (fun e A => csr_set_element_new A (fst (fst e)) (snd (fst e)) (snd e)) A)
      (fun A' => cshape A' /\ cdims A A' /\ forall i, i < cN A -> crow A' i = crow A i ++ at_row (mm_cells f) i)).
    { apply (forM_inv (fun pre A' => cshape A' /\ cdims A A' /\ forall i, i < cN A -> crow A' i = crow A i ++ at_row pre i)).
      - split; [apply HW|]. split; [split; auto|]. intros. unfold at_row. cbn. rewrite app_nil_r. reflexivity.
      - intros pre [[i j] v] post B E (HB & (D1 & D2) & HR). cbn [fst snd]. destruct (cells_range (cN A) f i j v) as [Hi Hj]; auto. { rewrite E. apply in_or_app. right. left. auto. }
        assert (Hi2 : i < cN B) by lia. destruct (csr_set_element_new_ok B i j v) as (B' & -> & HU); [auto|lia|]. cbn [wpq].
        destruct (cupd_shape B B' i _ HB Hi2 HU) as ((D3 & D4) & H1 & H2 & H3). split; [auto|]. split; [split; congruence|]. intros r Hr. rewrite at_row_app, at_row_one.
        destruct (Nat.eqb_spec r i) as [->|Hne].
        + rewrite H2. rewrite HR by auto. rewrite app_assoc. reflexivity.
        + rewrite H3 by auto. rewrite HR by auto. rewrite app_nil_r. reflexivity. }
    apply wp_ok in G as (A' & E & HS & HDm & HR). exists A'. split; [exact E|].
    destruct (joined (cN A) f (crow A)) as [J1 J2]; auto.
    { intros i Hi. split; apply HW; auto. }
    pose proof HDm as [D1 D2]. split; [split; [auto|]; intros i Hi; rewrite <- D1 in *; rewrite HR by auto; apply J1; auto|]. split; [auto|].
    intros i j Hi Hj. unfold cmat at 1. rewrite HR by auto. rewrite J2 by auto. reflexivity.
  Qed.

  (** readers that overwrite: one cell after the other *)
  Lemma overwrite {S} {e} n f (mx : S -> mat F) (inv : S -> Prop) (put : nat -> nat -> F -> S -> res S) (s : S) : mm_good n f -> inv s ->
    (forall i j v s, inv s -> i < n -> j < n -> wpq e (put i j v s) (fun s' => inv s' /\ meq n (mx s') (fun a b => if ((a =? i) && (b =? j))%bool then v else mx s a b))) ->
    wpq e (forM (mm_cells f) (fun c => put (fst (fst c)) (snd (fst c)) (snd c)) s)
      (fun s' => inv s' /\ meq n (mx s') (fun i j => match cell_get (mm_cells f) i j with Some v => v | None => mx s i j end)).
  Proof.
    intros HG HI HP. pose proof HG as (_ & _ & _ & ND).
    apply (forM_inv (fun pre s' => inv s' /\ meq n (mx s') (fun i j => match cell_get pre i j with Some v => v | None => mx s i j end))).
    - split; auto. intros i j _ _. reflexivity.
    - intros pre [[i j] v] post s' E (I' & V). cbn [fst snd]. destruct (cells_range n f i j v) as [Hi Hj]; auto. { rewrite E. apply in_or_app. right. left. auto. }
      eapply wp_mono; [apply HP; auto|]. cbn beta. intros s2 (I2 & V2). split; auto. intros a b Ha Hb. rewrite V2 by auto. rewrite cell_get_snoc.
      2:{ rewrite E, map_app in ND. apply NoDup_app_inv in ND as (_ & _ & ND). intros H. apply (ND (i, j)); auto. left. auto. }
      destruct ((a =? i) && (b =? j))%bool; auto.
  Qed.

  Theorem dense_read_ok (A : dense) f : dwf A -> mm_good (dN A) f -> mm_sym f = false ->
    exists A', dense_read A f = Ok A' /\ dwf A' /\ dN A' = dN A /\
      meq (dN A) (denm A') (fun i j => match cell_get (mm_cells f) i j with Some v => v | None => denm A i j end).
  Proof.
    intros HW HG HS. pose proof HG as (_ & HL & _ & ND). unfold dense_read. rewrite mm_for_ok by auto.
    rewrite (forM_ext _ _ (pushes f (fun i j v A => d_put A i j v))).
    2:{ intros [[r c] v] s. unfold pushes. rewrite HS. cbn [fst snd andb]. destruct (dec r), (dec c); cbn [bind]; auto. destruct (d_put s a a0 v); auto. }
    rewrite (pushes_cells (dN A)) by auto.
    assert (G := overwrite (e:=False) (dN A) f denm (fun B => dwf B /\ dN B = dN A) (fun i j v A => d_put A i j v) A HG).
    apply wp_ok in G as (A' & E & (W & EN) & V); [exists A'; auto|split; auto|].
    intros i j v B (WB & EN) Hi Hj. apply d_put_wp; [auto|lia|lia|]. intros B' W' EN' V. split; [split; congruence|]. intros a b Ha Hb. apply V; lia.
  Qed.

  (** ellblock *)
  Definition eb_put (g : nat -> F) (i j : nat) (v : F) (A : eb) : res eb :=
    '(ib, ii) <- locate (bbs A) 0 i ;; '(jb, jj) <- locate (bbs A) 0 j ;;
    '(A, found) <- put_found A ib ii jb jj v ;;
    if (found : bool) then Ok A else
      n <- b_nnz A ib ;; if bMB A <=? n then Err else put_new A ib ii jb jj v g.
  Lemma eb_put_ok {e : Prop} g i j v (A : eb) : ebwf A -> i < bN A -> j < bN A -> (e \/ bNB A <= bMB A) ->
    wpq e (eb_put g i j v A) (fun A' => (ebwf A' /\ kin A A') /\
      meq (bN A) (ebmx A') (fun i' j' => if ((i' =? i) && (j' =? j))%bool then v else ebmx A i' j')).
  Proof.
    intros HW Hi Hj Hr. pose proof HW as (HS & HO & HR). unfold eb_put.
    rewrite (shape_N A HS) in Hi, Hj. rewrite !locate_ok by auto. cbn [bind plus].
    destruct (bloc_spec _ _ Hi) as (ib & ii & E1 & Hib & Hii & Ei), (bloc_spec _ _ Hj) as (jb & jj & E2 & Hjb & Hjj & Ej).
    rewrite E1, E2 in *. cbn [fst snd] in *. rewrite (sh_bs A HS) in Hib, Hjb.
    assert (HF : forall A', elem_set A ib jb (ii * bsz (bbs A) jb + jj) v A' -> (ebwf A' /\ kin A A') /\
      meq (bN A) (ebmx A') (fun i' j' => if ((i' =? i) && (j' =? j))%bool then v else ebmx A i' j')).
    { intros A' H. split; [split; apply H|]. rewrite Ei, Ej. apply elem_set_mx; auto. }
    apply wp_bind. eapply wp_mono; [apply put_found_ok; auto|]. intros [A1 fd] [(Hin & Ef & HE)|(Hn & E)]; cbn [fst snd] in *.
    - rewrite Ef. cbn [wpq]. apply HF; auto.
    - injection E as -> ->. apply wp_bind. rewrite b_nnz_ok by auto. cbn [wpq].
      destruct (Nat.leb_spec (bMB A) (bnz A ib)) as [Hf|Hf].
      + cbn [wpq]. destruct Hr as [He|Hr]; auto. exfalso. pose proof (HR ib Hib) as HB.
        assert (Hle : length (jb :: bcols A ib) <= length (seq 0 (bNB A))).
        { apply NoDup_incl_length; [constructor; auto; apply HB|]. intros k [<-|Hk]; apply in_seq; [lia|].
          unfold bcols in Hk. apply in_map_iff in Hk as (jp & <- & Hjp). apply in_seq in Hjp. pose proof (ebwf_slot A ib jp HW Hib ltac:(lia)). lia. }
        cbn [length] in Hle. rewrite seq_length in Hle. unfold bcols in Hle. rewrite map_length, seq_length in Hle. lia.
      + eapply wp_mono; [apply put_new_ok; auto|]. apply HF.
  Qed.
  Lemma eb_read_gen {e : Prop} (A : eb) f g : ebwf A -> mm_good (bN A) f -> mm_sym f = false -> (e \/ bNB A <= bMB A) ->
    wpq e (eb_read A f g) (fun A' => (ebwf A' /\ kin A A') /\
      meq (bN A) (ebmx A') (fun i j => match cell_get (mm_cells f) i j with Some v => v | None => ebmx A i j end)).
  Proof.
    intros HW HG HS He. pose proof HG as (_ & HL & _ & ND). unfold eb_read. rewrite mm_for_ok by auto.
    rewrite (forM_ext _ _ (pushes f (eb_put g))).
    2:{ intros [[r c] v] s. unfold pushes, eb_put. rewrite HS. cbn [fst snd andb]. destruct (dec r), (dec c); cbn [bind]; auto.
        destruct (locate (bbs s) 0 a) as [[ib ii]| | |]; cbn [bind]; auto. destruct (locate (bbs s) 0 a0) as [[jb jj]| | |]; cbn [bind]; auto.
        destruct (put_found s ib ii jb jj v) as [[s1 fd]| | |]; cbn [bind]; auto. }
    rewrite (pushes_cells (bN A)) by auto.
    apply (overwrite (bN A) f ebmx (fun B => ebwf B /\ kin A B) (eb_put g)); auto.
    - split; auto. apply kin_refl.
    - intros i j v B (WB & KB) Hi Hj. pose proof KB as (D1 & D2 & D3 & D4 & D5 & _). rewrite <- D1 in Hi, Hj |- *. eapply wp_mono; [apply eb_put_ok; auto; intuition congruence|].
      cbn beta. intros B' ((W' & K') & V). split; [split; [auto|eapply kin_trans; eauto]|]. exact V.
  Qed.
  Definition blkL (A : eb) (ib jp : nat) : list cell :=
    map (fun k => (boff (bbs A) ib + k / bsz (bbs A) (scol A ib jp), boff (bbs A) (scol A ib jp) + k mod bsz (bbs A) (scol A ib jp), nth k (sblk A ib jp) k0))
      (seq 0 (bsz (bbs A) ib * bsz (bbs A) (scol A ib jp))).
  Definition brwL (A : eb) (n ib : nat) : list cell := flat_map (blkL A ib) (seq 0 n).
  Definition ebL (A : eb) (n : nat) : list cell := flat_map (fun ib => brwL A (bnz A ib) ib) (seq 0 n).
  Lemma brwL_S A n ib : brwL A (S n) ib = brwL A n ib ++ blkL A ib n.
  Proof. unfold brwL. rewrite seq_S, flat_map_app. cbn [flat_map plus]. rewrite app_nil_r. reflexivity. Qed.
  Lemma ebL_S A n : ebL A (S n) = ebL A n ++ brwL A (bnz A n) n.
  Proof. unfold ebL. rewrite seq_S, flat_map_app. cbn [flat_map plus]. rewrite app_nil_r. reflexivity. Qed.
  Lemma ebL_in A n e : In e (ebL A n) <-> exists ib jp k, ib < n /\ jp < bnz A ib /\ k < bsz (bbs A) ib * bsz (bbs A) (scol A ib jp) /\
    e = (boff (bbs A) ib + k / bsz (bbs A) (scol A ib jp), boff (bbs A) (scol A ib jp) + k mod bsz (bbs A) (scol A ib jp), nth k (sblk A ib jp) k0).
  Proof.
    unfold ebL, brwL, blkL. rewrite in_flat_map. split.
    - intros (ib & Hi & H). apply in_flat_map in H as (jp & Hj & H). apply in_map_iff in H as (k & <- & Hk). apply in_seq in Hi, Hj, Hk.
      exists ib, jp, k. repeat split; lia.
    - intros (ib & jp & k & Hi & Hj & Hk & ->). exists ib. split; [apply in_seq; lia|]. apply in_flat_map. exists jp. split; [apply in_seq; lia|].
      apply in_map_iff. exists k. split; auto. apply in_seq. lia.
  Qed.

  Theorem eb_write_file fmt (A : eb) : ebwf A -> eb_write fmt A = Ok (wfile fmt (bN A) (ebL A (bNB A))).
  Proof.
    intros HW. pose proof HW as (HS & HO & HR). pose proof (sh_bs A HS) as EB. pose proof (sh_nb A HS) as HNB. apply wp_eq. unfold eb_write. apply wp_bind.
    eapply wp_mono. { apply (for_n_inv (fun n m => m = length (ebL A n))); [reflexivity|]. intros ib m Hi ->. rewrite b_for_row_unfold by auto.
      eapply wp_mono. { apply (for_n_inv (fun n m => m = length (ebL A ib ++ brwL A n ib))); [rewrite app_nil_r; reflexivity|].
        intros jp m Hj ->. destruct (ebwf_slot A ib jp) as (Hm & Hc & Hx & Hl); auto. rewrite !b_bs_ok by auto. cbn [bind wpq].
        rewrite brwL_S, !app_length. unfold blkL. rewrite map_length, seq_length. lia. }
      intros m ->. rewrite ebL_S. reflexivity. }
    intros m ->. rewrite offsets_ok by lia. cbn [bind]. apply wp_bind.
    eapply wp_mono. { apply (for_n_inv (fun n out => out = map (enc fmt) (ebL A n))); [reflexivity|]. intros ib out Hi ->. rewrite b_for_row_unfold by auto.
      eapply wp_mono. { apply (for_n_inv (fun n out => out = map (enc fmt) (ebL A ib ++ brwL A n ib))); [rewrite app_nil_r; reflexivity|].
        intros jp out Hj ->. destruct (ebwf_slot A ib jp) as (Hm & Hc & Hx & Hl); auto. rewrite (b_blk_ok A ib jp (sblk A ib jp)) by auto. rewrite !b_bs_ok by auto. cbn [bind].
        rewrite for_2_flat. set (c := scol A ib jp) in *. set (L0 := ebL A ib ++ brwL A jp ib).
        eapply wp_mono.
        { apply (for_n_inv (fun n out => out = map (enc fmt) L0 ++ map (enc fmt) (map (fun k => (boff (bbs A) ib + k / bsz (bbs A) c, boff (bbs A) c + k mod bsz (bbs A) c, nth k (sblk A ib jp) k0)) (seq 0 n)))); [rewrite app_nil_r; reflexivity|].
          intros k out Hk ->. destruct (pos_split _ _ _ Hk) as (P1 & P2 & P3).
          rewrite !(rd_ok (map (boff (bbs A)) (seq 0 (bNB A))) _ 0) by (rewrite map_length, seq_length; auto). rewrite !nth_map_seq by auto. cbn [bind].
          unfold ROWMAJOR. rewrite <- P3. rewrite (rd_ok _ _ k0) by lia. cbn [bind wpq]. rewrite seq_S, !map_app, app_assoc. cbn [map plus]. f_equal. unfold enc. cbn [fst snd].
          rewrite <- !Nat.add_assoc, (Nat.add_comm 1), (Nat.add_comm 1 (k mod _)). reflexivity. }
        intros out ->. unfold L0. rewrite brwL_S. rewrite <- map_app, app_assoc. reflexivity. }
      intros out ->. rewrite ebL_S. reflexivity. }
    intros out ->. cbn [wpq]. reflexivity.
  Qed.

  Lemma eb_repr (A : eb) : ebwf A -> repr (bN A) (ebmx A) (ebL A (bNB A)).
  Proof.
    intros HW. pose proof HW as (HS & HO & HR). pose proof (sh_bs A HS) as EB. pose proof (shape_N A HS) as EN. rewrite EB in EN. set (bs := bbs A) in *.
    assert (Huniq : forall ib ii ib' ii', ib < bNB A -> ib' < bNB A -> ii < bsz bs ib -> ii' < bsz bs ib' -> boff bs ib + ii = boff bs ib' + ii' -> ib = ib' /\ ii = ii').
    { intros ib ii ib' ii' H1 H2 H3 H4 E. assert (E2 : bloc bs (boff bs ib + ii) = bloc bs (boff bs ib' + ii')) by congruence.
      rewrite !bloc_at in E2 by (auto; lia). split; congruence. }
    assert (Hval : forall ib jp k, ib < bNB A -> jp < bnz A ib -> k < bsz bs ib * bsz bs (scol A ib jp) -> scol A ib jp < bNB A /\
      ebmx A (boff bs ib + k / bsz bs (scol A ib jp)) (boff bs (scol A ib jp) + k mod bsz bs (scol A ib jp)) = nth k (sblk A ib jp) k0).
    { intros ib jp k Hi Hj Hk. destruct (ebwf_slot A ib jp) as (Hm & Hc & Hx & Hl); auto. split; auto. destruct (pos_split _ _ _ Hk) as (P1 & P2 & P3).
      unfold bs. rewrite ebmx_at by auto. fold bs. rewrite <- P3. apply bel_hit; auto. }
    split; [|split].
    - unfold ebL. rewrite flat_map_concat_map, concat_map, map_map, <- flat_map_concat_map. apply NoDup_flat_map_intro; [apply seq_NoDup| |].
      + intros ib Hi. apply in_seq in Hi. unfold brwL. rewrite flat_map_concat_map, concat_map, map_map, <- flat_map_concat_map. apply NoDup_flat_map_intro; [apply seq_NoDup| |].
        * intros jp Hj. apply in_seq in Hj. unfold blkL. rewrite map_map. cbn [fst]. fold bs.
          apply (NoDup_map_on (fun k => (boff bs ib + k / bsz bs (scol A ib jp), boff bs (scol A ib jp) + k mod bsz bs (scol A ib jp)))); [|apply seq_NoDup].
          intros k k' Hk Hk' E. apply in_seq in Hk, Hk'. injection E as E1 E2. destruct (pos_split (bsz bs ib) (bsz bs (scol A ib jp)) k) as (_ & _ & P); [lia|].
          destruct (pos_split (bsz bs ib) (bsz bs (scol A ib jp)) k') as (_ & _ & P'); [lia|]. rewrite P, P'. replace (k / bsz bs (scol A ib jp)) with (k' / bsz bs (scol A ib jp)) by lia. lia.
        * intros jp jp' z Hj Hj' H1 H2. apply in_seq in Hj, Hj'. unfold blkL in H1, H2. rewrite map_map in H1, H2. fold bs in H1, H2. cbn [fst] in H1, H2.
          apply in_map_iff in H1 as (k & <- & Hk). apply in_map_iff in H2 as (k' & E & Hk'). apply in_seq in Hk, Hk'. injection E as E1 E2.
          destruct (pos_split (bsz bs ib) (bsz bs (scol A ib jp)) k) as (P1 & P2 & _); [lia|]. destruct (pos_split (bsz bs ib) (bsz bs (scol A ib jp')) k') as (P1' & P2' & _); [lia|].
          assert (Hc : scol A ib jp < bNB A) by (apply ebwf_slot; auto; lia). assert (Hc' : scol A ib jp' < bNB A) by (apply ebwf_slot; auto; lia).
          apply Huniq in E2 as [E2 _]; auto. pose proof (HR ib ltac:(lia)) as HB. assert (ND : NoDup (bcols A ib)) by apply HB.
          apply (proj1 (NoDup_nth (bcols A ib) 0) ND); unfold bcols; rewrite ?map_length, ?seq_length; try lia. rewrite !nth_map_seq by lia. auto.
      + intros ib ib' z Hi Hi' H1 H2. apply in_seq in Hi, Hi'. apply in_map_iff in H1 as (e & <- & H1). apply in_map_iff in H2 as (e' & E & H2).
        unfold brwL in H1, H2. apply in_flat_map in H1 as (jp & Hj & H1). apply in_flat_map in H2 as (jp' & Hj' & H2). apply in_seq in Hj, Hj'.
        unfold blkL in H1, H2. fold bs in H1, H2. apply in_map_iff in H1 as (k & <- & Hk). apply in_map_iff in H2 as (k' & <- & Hk'). apply in_seq in Hk, Hk'. cbn [fst] in E. injection E as E1 E2.
        destruct (pos_split (bsz bs ib) (bsz bs (scol A ib jp)) k) as (P1 & P2 & _); [lia|]. destruct (pos_split (bsz bs ib') (bsz bs (scol A ib' jp')) k') as (P1' & P2' & _); [lia|].
        apply Huniq in E1 as [E1 _]; auto; lia.
    - intros i j v H. apply ebL_in in H as (ib & jp & k & Hi & Hj & Hk & E). fold bs in Hk, E. injection E as -> -> ->.
      destruct (Hval ib jp k) as [Hc V]; auto. destruct (pos_split _ _ _ Hk) as (P1 & P2 & P3). rewrite EN. split; [apply boff_in; auto|]. split; [apply boff_in; auto|]. auto.
    - intros i j Hi Hj Hn. rewrite EN, <- EB in Hi, Hj. destruct (bloc_spec _ _ Hi) as (ib & ii & E1 & Hib & Hii & ->), (bloc_spec _ _ Hj) as (jb & jj & E2 & Hjb & Hjj & ->).
      rewrite EB in Hib, Hjb. unfold bs. rewrite ebmx_at by auto. fold bs. apply bel_miss. intros jp Hjp E. apply Hn.
      apply in_map_iff. exists (boff bs ib + ii, boff bs jb + jj, nth (ii * bsz bs jb + jj) (sblk A ib jp) k0). split; auto. apply ebL_in.
      exists ib, jp, (ii * bsz bs jb + jj). fold bs. rewrite E. split; auto. split; auto. split; [apply pos_lt; auto|]. rewrite pos_div, pos_mod by auto. reflexivity.
  Qed.

  (** ** The statements *)
  Lemma wfile_written fmt N X L : repr N X L -> fmt k0 = k0 -> written N X fmt (wfile fmt N L).
  Proof. intros H1 H2. split; [reflexivity|]. apply wfile_ok; auto. Qed.
  Lemma rows_count fmt R N i : i < N -> mm_row_count (wfile fmt N (rowsL R N)) i = length (R i).
  Proof.
    intros Hi. unfold mm_row_count. rewrite wfile_cells. revert i Hi. induction N as [|n IH]; intros i Hi; [lia|].
    rewrite rowsL_S, map_app, filter_app, app_length.
    assert (E1 : forall m, (forall r, r < m -> r <> i) -> filter (fun e : cell => fst (fst e) =? i) (map (fun e => (fst e, fmt (snd e))) (rowsL R m)) = []).
    { intros m Hm. induction m as [|m IHm]; [reflexivity|]. rewrite rowsL_S, map_app, filter_app, IHm by (intros; apply Hm; lia). unfold rowL. rewrite !map_map. cbn [fst app].
      generalize (R m). induction l as [|kv l IHl]; [reflexivity|]. cbn [map filter fst]. destruct (Nat.eqb_spec m i); [exfalso; apply (Hm m); lia|auto]. }
    assert (E2 : forall m, length (filter (fun e : cell => fst (fst e) =? i) (map (fun e => (fst e, fmt (snd e))) (rowL R m))) = if m =? i then length (R m) else 0).
    { intros m. unfold rowL. rewrite !map_map. generalize (R m). induction l as [|kv l IHl]; [destruct (m =? i); reflexivity|].
      cbn [map filter fst]. destruct (m =? i); cbn [length]; auto. }
    rewrite E2. destruct (Nat.eqb_spec n i) as [->|Hne].
    - rewrite E1 by (intros; lia). reflexivity.
    - rewrite IH by lia. lia.
  Qed.

  Theorem ell_write_ok fmt (A : ell) : wf A -> fmt k0 = k0 ->
    exists f, ell_write fmt A = Ok f /\ written (eN A) (emat A) fmt f /\ forall i, i < eN A -> mm_row_count f i = length (erow A i).
  Proof. intros HW H0. eexists. split; [apply ell_write_file; auto|]. split; [apply wfile_written; auto; apply ell_repr; auto|]. intros. apply rows_count; auto. Qed.
  Theorem csr_write_ok fmt (A : csr) : cwf A -> fmt k0 = k0 ->
    exists f, csr_write fmt A = Ok f /\ written (cN A) (cmat A) fmt f /\ forall i, i < cN A -> mm_row_count f i = length (crow A i).
  Proof. intros HW H0. eexists. split; [apply csr_write_file; auto|]. split; [apply wfile_written; auto; apply csr_repr; auto|]. intros. apply rows_count; auto. Qed.
  Theorem dense_write_ok fmt (A : dense) : dwf A -> fmt k0 = k0 ->
    exists f, dense_write fmt A = Ok f /\ written (dN A) (denm A) fmt f /\
      forall i, i < dN A -> mm_row_count f i = count (dN A) (fun j => negb (keqb (denm A i j) k0)).
  Proof.
    intros HW H0. eexists. split; [apply dense_write_file; auto|]. split; [apply wfile_written; auto; apply dense_repr; auto|]. intros. rewrite rows_count by auto.
    unfold nzrow, count. generalize (seq 0 (dN A)). induction l as [|j l IH]; [reflexivity|]. cbn [map filter snd]. destruct (negb _); cbn [length]; auto.
  Qed.
  Theorem eb_write_ok fmt (A : eb) : ebwf A -> fmt k0 = k0 -> exists f, eb_write fmt A = Ok f /\ written (bN A) (ebmx A) fmt f.
  Proof. intros HW H0. eexists. split; [apply eb_write_file; auto|]. apply wfile_written; auto. apply eb_repr; auto. Qed.

  Theorem eb_read_ok (A : eb) f g : ebwf A -> mm_good (bN A) f -> mm_sym f = false ->
    eb_read A f g = Err \/
    exists A', eb_read A f g = Ok A' /\ ebwf A' /\ bN A' = bN A /\ bbs A' = bbs A /\
      meq (bN A) (ebmx A') (fun i j => match cell_get (mm_cells f) i j with Some v => v | None => ebmx A i j end).
  Proof.
    intros HW HG HS. destruct (proj1 (wpe_ok _ _) (eb_read_gen (e:=True) A f g HW HG HS (or_introl I))) as [E|(A' & E & (W & K) & V)]; [left; auto|right].
    exists A'. destruct K as (K1 & K2 & K3 & K4 & K5 & _). auto.
  Qed.
  Theorem eb_read_room (A : eb) f g : ebwf A -> mm_good (bN A) f -> mm_sym f = false -> bNB A <= bMB A ->
    exists A', eb_read A f g = Ok A' /\ ebwf A' /\ bN A' = bN A /\ bbs A' = bbs A /\
      meq (bN A) (ebmx A') (fun i j => match cell_get (mm_cells f) i j with Some v => v | None => ebmx A i j end).
  Proof.
    intros HW HG HS Hr. destruct (proj1 (wp_ok _ _) (eb_read_gen (e:=False) A f g HW HG HS (or_intror Hr))) as (A' & E & (W & K) & V).
    exists A'. destruct K as (K1 & K2 & K3 & K4 & K5 & _). auto.
  Qed.

  (** a short file *)
  Theorem read_short f : length (mm_ents f) < mm_nnz f ->
    (forall (A A' : ell), ell_read A f <> Ok A') /\ (forall (A A' : csr), csr_read A f <> Ok A') /\
    (forall (A A' : dense), dense_read A f <> Ok A') /\ (forall (A A' : eb) g, eb_read A f g <> Ok A').
  Proof. intros H. repeat split; intros; apply mm_for_short; auto. Qed.

  (** ** Writing and reading back *)
  Lemma over_zero n f (X : mat F) : meq n X mzero -> meq n (fun i j => match cell_get (mm_cells f) i j with Some v => v | None => X i j end) (mm_mat f).
  Proof. intros H i j Hi Hj. unfold mm_mat. destruct (cell_get (mm_cells f) i j); auto. apply H; auto. Qed.

  (** reading a file of any writer into an empty matrix gives the written one *)
  Theorem ell_read_written (Z : ell) X fmt f : wf Z -> written (eN Z) X fmt f -> (forall i, i < eN Z -> erow Z i = []) ->
    (forall i, i < eN Z -> mm_row_count f i <= eM Z) ->
    exists C, ell_read Z f = Ok C /\ wf C /\ meq (eN Z) (emat C) (fun i j => fmt (X i j)).
  Proof.
    intros HW (_ & HG & HM) HE HC. destruct (ell_read_ok Z f) as (C & E & W & _ & _ & V); auto.
    - intros i j v H. destruct (cells_range _ _ _ _ _ HG H) as [Hi Hj]. unfold stored. rewrite HE by auto. reflexivity.
    - intros i Hi. rewrite HE by auto. cbn [length plus]. auto.
    - exists C. split; auto. split; auto. intros i j Hi Hj. rewrite V by auto. rewrite <- HM by auto.
      apply (over_zero (eN Z) f (emat Z)); auto. intros a b Ha Hb. unfold emat. rewrite HE by auto. reflexivity.
  Qed.
  Theorem csr_read_written (Z : csr) X fmt f : cwf Z -> written (cN Z) X fmt f -> (forall i, i < cN Z -> crow Z i = []) ->
    exists C, csr_read Z f = Ok C /\ cwf C /\ meq (cN Z) (cmat C) (fun i j => fmt (X i j)).
  Proof.
    intros HW (_ & HG & HM) HE. destruct (csr_read_ok Z f) as (C & E & W & _ & V); auto.
    - intros i j v H. destruct (cells_range _ _ _ _ _ HG H) as [Hi Hj]. rewrite HE by auto. intros [].
    - exists C. split; auto. split; auto. intros i j Hi Hj. rewrite V by auto. rewrite <- HM by auto.
      apply (over_zero (cN Z) f (cmat Z)); auto. intros a b Ha Hb. unfold cmat. rewrite HE by auto. reflexivity.
  Qed.
  Theorem dense_read_written (Z : dense) X fmt f : dwf Z -> written (dN Z) X fmt f -> meq (dN Z) (denm Z) mzero ->
    exists C, dense_read Z f = Ok C /\ dwf C /\ meq (dN Z) (denm C) (fun i j => fmt (X i j)).
  Proof.
    intros HW (HS & HG & HM) HE. destruct (dense_read_ok Z f) as (C & E & W & _ & V); auto.
    exists C. split; auto. split; auto. intros i j Hi Hj. rewrite V by auto. rewrite <- HM by auto. apply (over_zero (dN Z) f (denm Z)); auto.
  Qed.
  Theorem eb_read_written (Z : eb) X fmt f g : ebwf Z -> written (bN Z) X fmt f -> meq (bN Z) (ebmx Z) mzero -> bNB Z <= bMB Z ->
    exists C, eb_read Z f g = Ok C /\ ebwf C /\ meq (bN Z) (ebmx C) (fun i j => fmt (X i j)).
  Proof.
    intros HW (HS & HG & HM) HE HR. destruct (eb_read_room Z f g) as (C & E & W & _ & _ & V); auto.
    exists C. split; auto. split; auto. intros i j Hi Hj. rewrite V by auto. rewrite <- HM by auto. apply (over_zero (bN Z) f (ebmx Z)); auto.
  Qed.
End MmFacts.
