(** Reading rows, import and export of distributed matrices. *)
From Verif Require Import Base BaseFacts Spec SpecFacts EllpackModel EllpackSpec EllpackFacts EllpackOps EllpackExact
  CsrModel CsrSpec CsrHash GemmModel DenseModel DenseSpec FormatModel FormatSpec FormatFacts FormatHistModel FormatHistSpec FormatHist
  Dist2dModel Dist2dSpec Dist2dLocal Dist2dFacts Dist2dCannon Dist2dOps Dist2dMore.
From Coq Require Import Ring.

Section DistIO.
  Context {F : scalar}.
  Local Notation bmat := (bmat F).
  Local Notation env := (env F).
  Local Notation dist := (dist F).
  Local Open Scope K_scope.

  (** ** Reading a row *)
  Lemma store_at_ok (buf : list F) d piece : (d + length piece <= length buf)%nat ->
    exists b, store_at buf d piece = Ok b /\ length b = length buf /\
      forall c, nth c b 0 = if ((d <=? c) && (c <? d + length piece))%nat%bool then nth (c - d) piece 0 else nth c buf 0.
  Proof.
    intros H. unfold store_at. apply wp_ok. eapply wp_mono.
    - apply (for_n_inv (fun k b => length b = length buf /\
        forall c, nth c b 0 = if ((d <=? c) && (c <? d + k))%nat%bool then nth (c - d) piece 0 else nth c buf 0)).
      + split; auto. intros c. destruct (Nat.leb_spec d c), (Nat.ltb_spec c (d + 0)); cbn [andb]; auto; lia.
      + intros k b Hk [HL HB]. rewrite (rd_ok piece k 0) by exact Hk. cbn [bind]. rewrite wr_ok by lia. apply wp_ok. eexists. split; [reflexivity|].
        split; [rewrite length_set_nth; exact HL|]. intros c. rewrite nth_set_nth, HB.
        destruct (Nat.eqb_spec c (d + k)) as [->|Nc].
        * destruct (Nat.ltb_spec (d + k) (length b)); [|lia]. cbn [andb].
          destruct (Nat.leb_spec d (d + k)), (Nat.ltb_spec (d + k) (d + S k)); cbn [andb]; try lia. f_equal. lia.
        * cbn [andb]. destruct (Nat.leb_spec d c), (Nat.ltb_spec c (d + k)), (Nat.ltb_spec c (d + S k)); cbn [andb]; auto; lia.
    - auto.
  Qed.

  Lemma displs_ok counts P : length counts = P -> (0 < P)%nat ->
    exists ds, get_row_displs counts P = Ok ds /\ length ds = P /\ forall k, (k < P)%nat -> nth k ds 0%nat = match k with 0%nat => 0%nat | S k => nth k counts 0%nat end.
  Proof.
    intros HL HP. unfold get_row_displs. apply wp_ok. eapply wp_mono.
    - apply (for_n_inv (fun i ds => length ds = P /\ forall k, (k < P)%nat -> nth k ds 0%nat = if (k <=? i)%nat then match k with 0%nat => 0%nat | S k => nth k counts 0%nat end else 0%nat)).
      + split; [apply repeat_length|]. intros k Hk. rewrite nth_repeat. destruct k; reflexivity.
      + intros i ds Hi [HD HN]. rewrite (rd_ok counts i 0%nat) by lia. cbn [bind]. rewrite (rd_ok ds (i + 1) 0%nat) by lia. cbn [bind].
        rewrite wr_ok by lia. apply wp_ok. eexists. split; [reflexivity|]. split; [rewrite length_set_nth; exact HD|].
        intros k Hk. rewrite nth_set_nth. destruct (Nat.eqb_spec k (i + 1)) as [->|Nk].
        * destruct (Nat.ltb_spec (i + 1) (length ds)); [|lia]. cbn [andb]. rewrite HN by lia.
          destruct (Nat.leb_spec (i + 1) i); [lia|]. destruct (Nat.leb_spec (i + 1) (S i)); [|lia]. rewrite Nat.add_1_r. reflexivity.
        * cbn [andb]. rewrite HN by auto. destruct (Nat.leb_spec k i), (Nat.leb_spec k (S i)); auto; lia.
    - intros ds [HD HN]. split; auto. intros k Hk. rewrite HN by auto. destruct (Nat.leb_spec k (P - 1)); [reflexivity|lia].
  Qed.

  Section GetRow.
    Variables (t : fmt) (A : dist) (i : nat) (order : list nat).
    Hypothesis OA : dist_ok t A.
    Hypothesis RA : dist_roomy A.
    Hypothesis HP : tprec A = true.
    Hypothesis Hi : (i < tN A)%nat.
    Hypothesis HO : Permutation order (seq 0 (tasks A)).
    Local Notation n := (tn A).
    Local Notation p := (tp A).
    Local Notation I0 := (i / tn A)%nat.

    Definition piece_of (r : nat) : list F :=
      if (cart_row p r =? I0)%nat then map (fun j => gmx A i (cart_col p r * n + j)%nat) (seq 0 n) else [].

    Lemma pieces_ok : exists l, each (tasks A) (fun r =>
        if ((myprow A r * n <=? i) && (i <? (myprow A r + 1) * n))%nat%bool
        then row <- bml_get_row (blk A r) (i - myprow A r * n)%nat ;; Ok (firstn n row)
        else Ok []) = Ok l /\ length l = tasks A /\ forall r, (r < tasks A)%nat -> nth r l [] = piece_of r.
    Proof.
      pose proof OA as ((Hp & Hn & HN) & _).
      edestruct (each_ok (X := list F) (tasks A)) with (Q := fun r x => x = piece_of r) as (l & EL & HL & HQ); [|exists l; split; [exact EL|split; [exact HL|intros r Hr; apply HQ, Hr]]].
      intros r Hr. unfold piece_of, myprow.
      assert (DI : i = (n * I0 + i mod n)%nat) by (apply Nat.div_mod; lia). assert (MI : (i mod n < n)%nat) by (apply Nat.mod_upper_bound; lia).
      destruct (Nat.eqb_spec (cart_row p r) I0) as [Q|Q].
      - rewrite Q. destruct (Nat.leb_spec (I0 * n) i); [|lia]. destruct (Nat.ltb_spec i ((I0 + 1) * n)); [|lia]. cbn [andb].
        destruct (here t A OA RA r Hr) as [SA MA]. assert (Hx : (i - I0 * n < n)%nat) by lia. rewrite (sh_get_row t n (tM A / p) _ _ Hx SA). cbn [bind].
        eexists. split; [reflexivity|]. rewrite firstn_all2 by (rewrite map_length, seq_length; lia). apply map_ext_in. intros j Hj. apply in_seq in Hj.
        rewrite MA by lia. unfold sub. rewrite Q. f_equal. lia.
      - destruct (Nat.leb_spec (cart_row p r * n) i) as [L1|]; [|eexists; split; reflexivity].
        destruct (Nat.ltb_spec i ((cart_row p r + 1) * n)) as [L2|]; [|eexists; split; reflexivity].
        exfalso. apply Q. apply Nat.le_antisymm; [|]; nia.
    Qed.

    Lemma piece_length r : length (piece_of r) = if (cart_row p r =? I0)%nat then n else 0%nat.
    Proof. unfold piece_of. destruct (_ =? _)%nat; [|reflexivity]. rewrite map_length, seq_length. reflexivity. Qed.

    (** the place where the piece of task [r] is stored *)
    Lemma displ_ok ds pieces r : length pieces = tasks A -> (forall r, (r < tasks A)%nat -> nth r pieces [] = piece_of r) ->
      get_row_displs (map (@length F) pieces) (tasks A) = Ok ds -> (r < tasks A)%nat -> cart_row p r = I0 ->
      nth r ds 0%nat = if (cart_col p r =? 0)%nat then 0%nat else n.
    Proof.
      intros HL HQ ED Hr Q. pose proof OA as ((Hp & Hn & HN) & _). destruct (displs_ok (map (@length F) pieces) (tasks A)) as (ds' & ED' & _ & HD).
      { rewrite map_length; exact HL. } { unfold tasks. nia. }
      rewrite ED in ED'. injection ED' as <-. rewrite HD by exact Hr. clear HD.
      destruct r as [|r].
      - assert (C0 : cart_col p 0 = 0%nat) by (unfold cart_col; apply Nat.mod_0_l; lia). rewrite C0. reflexivity.
      - change 0%nat with (length (@nil F)) at 1. rewrite map_nth, HQ, piece_length by lia.
        assert (E := rank_of p (S r) Hp). assert (CL := col_lt p (S r) Hp). unfold cart_rank in E.
        destruct (Nat.eqb_spec (cart_col p (S r)) 0) as [C0|C0].
        + destruct (Nat.eqb_spec (cart_row p r) I0) as [X|]; [|reflexivity]. exfalso. rewrite C0 in E. assert (E' := rank_of p r Hp).
          unfold cart_rank in E'. assert (cart_col p r < p)%nat by (apply col_lt, Hp). rewrite X in E'. rewrite Q in E. lia.
        + assert (R : r = (cart_row p (S r) * p + (cart_col p (S r) - 1))%nat) by lia.
          assert (X : cart_row p r = cart_row p (S r)) by (rewrite R at 1; apply (rank_row p (cart_row p (S r)) (cart_col p (S r) - 1)); lia).
          rewrite X, Q, Nat.eqb_refl. reflexivity.
    Qed.

    (** What bml_get_row returns: the first block of columns is right; of the
        others, only one block arrives, at columns n..2n-1, and the rest of the
        row is zero. *)
    Lemma dist_get_row_actual : exists row, dist_get_row A i order = Ok row /\ length row = tN A /\
      (forall c, (c < n)%nat -> nth c row 0 = gmx A i c) /\
      (forall c, (2 * n <= c < tN A)%nat -> nth c row 0 = 0) /\
      ((1 < p)%nat -> exists J, (1 <= J < p)%nat /\ forall c, (n <= c < 2 * n)%nat -> nth c row 0 = gmx A i (J * n + (c - n))%nat).
    Proof.
      pose proof OA as ((Hp & Hn & HN) & _). unfold dist_get_row. rewrite HP. destruct pieces_ok as (pieces & -> & HL & HQ). cbn [bind].
      destruct (displs_ok (map (@length F) pieces) (tasks A)) as (ds & ED & LD & _). { rewrite map_length; exact HL. } { unfold tasks. nia. }
      rewrite ED. cbn [bind]. assert (DD := displ_ok ds pieces).
      assert (BI : (I0 < p)%nat) by (apply Nat.div_lt_upper_bound; lia).
      pose (last := fun (pre : list nat) (buf : list F) =>
        (forall J, (1 <= J < p)%nat -> ~ In (cart_rank p I0 J) pre) \/
        exists J, (1 <= J < p)%nat /\ forall c, (n <= c < 2 * n)%nat -> nth c buf 0 = gmx A i (J * n + (c - n))%nat).
      pose (inv := fun (pre : list nat) (buf : list F) => length buf = tN A /\
        (forall c, (c < n)%nat -> In (cart_rank p I0 0) pre -> nth c buf 0 = gmx A i c) /\
        (forall c, (2 * n <= c)%nat -> nth c buf 0 = 0) /\ last pre buf).
      apply wp_ok. eapply wp_mono.
      - apply (forM_inv inv).
        + split; [apply repeat_length|]. split; [intros c _ []|]. split; [intros c _; apply nth_repeat|]. left. auto.
        + intros pre r post buf EO (LB & B1 & B2 & B3).
          assert (Hr : (r < tasks A)%nat).
          { assert (X : In r order) by (rewrite EO; apply in_or_app; right; left; reflexivity). apply (Permutation_in _ HO), in_seq in X. lia. }
          rewrite (rd_ok pieces r []) by lia. cbn [bind]. rewrite (rd_ok ds r 0%nat) by lia. cbn [bind]. rewrite HQ by exact Hr.
          destruct (Nat.eq_dec (cart_row p r) I0) as [Q|Q].
          * rewrite (DD r HL HQ ED Hr Q). assert (LP := piece_length r). rewrite Q, Nat.eqb_refl in LP.
            assert (RR : r = cart_rank p I0 (cart_col p r)) by (rewrite <- Q; symmetry; apply rank_of, Hp).
            destruct (store_at_ok buf (if (cart_col p r =? 0)%nat then 0%nat else n) (piece_of r)) as (b & EB & LB' & NB).
            { rewrite LP, LB, HN. destruct (Nat.eqb_spec (cart_col p r) 0); [nia|]. assert (X := col_lt p r Hp). nia. }
            rewrite EB. apply wp_ok. eexists. split; [reflexivity|]. split; [congruence|].
            assert (PN : forall j, (j < n)%nat -> nth j (piece_of r) 0 = gmx A i (cart_col p r * n + j)%nat).
            { intros j Hj. unfold piece_of. rewrite Q, Nat.eqb_refl. rewrite (nth_indep _ 0 (gmx A i (cart_col p r * n + 0)%nat)) by (rewrite map_length, seq_length; exact Hj).
              rewrite (map_nth (fun j => gmx A i (cart_col p r * n + j)%nat)), seq_nth by exact Hj. reflexivity. }
            rewrite LP in NB. destruct (Nat.eqb_spec (cart_col p r) 0) as [C0|C0].
            -- split; [|split].
               ++ intros c Hc _. rewrite NB. destruct (Nat.leb_spec 0 c), (Nat.ltb_spec c (0 + n)); try lia. cbn [andb]. rewrite Nat.sub_0_r, PN, C0 by lia. reflexivity.
               ++ intros c Hc. rewrite NB. destruct (Nat.leb_spec 0 c), (Nat.ltb_spec c (0 + n)); try lia. cbn [andb]. apply B2, Hc.
               ++ destruct B3 as [B3|(J & HJ & B3)].
                  ** left. intros J HJ X. apply in_app_or in X as [X|[X|[]]]; [apply (B3 J HJ X)|]. rewrite RR, C0 in X. unfold cart_rank in X. lia.
                  ** right. exists J. split; auto. intros c Hc. rewrite NB. destruct (Nat.leb_spec 0 c), (Nat.ltb_spec c (0 + n)); try lia. cbn [andb]. apply B3, Hc.
            -- split; [|split].
               ++ intros c Hc X. rewrite NB. destruct (Nat.leb_spec n c); [lia|]. cbn [andb]. apply B1; auto.
                  apply in_app_or in X as [X|[X|[]]]; [exact X|]. rewrite RR in X. unfold cart_rank in X. lia.
               ++ intros c Hc. rewrite NB. destruct (Nat.leb_spec n c), (Nat.ltb_spec c (n + n)); try lia. cbn [andb]. apply B2, Hc.
               ++ right. exists (cart_col p r). split; [assert (X := col_lt p r Hp); lia|]. intros c Hc. rewrite NB.
                  destruct (Nat.leb_spec n c), (Nat.ltb_spec c (n + n)); try lia. cbn [andb]. apply PN. lia.
          * assert (LP := piece_length r). destruct (Nat.eqb_spec (cart_row p r) I0) as [|_]; [contradiction|].
            assert (EP : piece_of r = []) by (destruct (piece_of r); [reflexivity|discriminate]). rewrite EP. cbn [store_at length for_n].
            apply wp_ok. eexists. split; [reflexivity|]. split; [exact LB|]. split; [|split; [exact B2|]].
            -- intros c Hc X. apply B1; auto. apply in_app_or in X as [X|[X|[]]]; [exact X|]. exfalso. apply Q. rewrite X. apply rank_row. lia.
            -- destruct B3 as [B3|B3]; [left|right; exact B3]. intros J HJ X. apply in_app_or in X as [X|[X|[]]]; [apply (B3 J HJ X)|].
               apply Q. rewrite X. apply rank_row. lia.
      - intros buf (LB & B1 & B2 & B3). assert (IN : forall J, (J < p)%nat -> In (cart_rank p I0 J) order).
        { intros J HJ. apply (Permutation_in _ (Permutation_sym HO)), in_seq. assert (X := rank_lt p I0 J BI HJ). unfold tasks. lia. }
        split; [exact LB|]. split; [intros c Hc; apply B1; auto|]. split; [intros c Hc; apply B2; lia|].
        intros H1. destruct B3 as [B3|B3]; [|exact B3]. exfalso. apply (B3 1%nat); [lia|]. apply IN, H1.
    Qed.

    (** on grids of 1 or 4 tasks the row is right *)
    Lemma dist_get_row_small : (p <= 2)%nat -> dist_get_row A i order = Ok (map (gmx A i) (seq 0 (tN A))).
    Proof.
      intros H2. destruct dist_get_row_actual as (row & -> & HL & R1 & R2 & R3). pose proof OA as ((Hp & Hn & HN) & _). f_equal.
      apply (list_ext_nth _ _ 0); [rewrite map_length, seq_length; exact HL|]. intros c Hc. rewrite HL in Hc. rewrite nth_map_seq by exact Hc.
      destruct (Nat.lt_ge_cases c n) as [C1|C1]; [apply R1, C1|]. destruct (Nat.lt_ge_cases c (2 * n)) as [C2|C2].
      - destruct R3 as (J & HJ & R3); [nia|]. rewrite R3 by lia. f_equal. assert (J = 1)%nat as -> by lia. lia.
      - nia.
    Qed.
  End GetRow.

  (** ** Import and export *)
  Lemma lacpy_ok m (src : list F) soff lds dst doff ldd : (m <= ldd)%nat ->
    (forall r c, (r < m)%nat -> (c < m)%nat -> soff + r + c * lds < length src)%nat ->
    (forall r c, (r < m)%nat -> (c < m)%nat -> doff + r + c * ldd < length dst)%nat ->
    exists d, lacpy m src soff lds dst doff ldd = Ok d /\ length d = length dst /\
      forall k, nth k d 0 = if ((doff <=? k) && ((k - doff) / ldd <? m) && ((k - doff) mod ldd <? m))%nat%bool
                            then nth (soff + (k - doff) mod ldd + (k - doff) / ldd * lds)%nat src 0 else nth k dst 0.
  Proof.
    intros HL HS HD. destruct (Nat.eq_dec m 0) as [->|Hm].
    { exists dst. split; [reflexivity|]. split; [reflexivity|]. intros k. cbn [Nat.ltb Nat.leb]. rewrite Bool.andb_false_r. reflexivity. }
    unfold lacpy. apply wp_ok. eapply wp_mono.
    - apply (for_n_inv (fun c d => length d = length dst /\
        forall k, nth k d 0 = if ((doff <=? k) && ((k - doff) / ldd <? c) && ((k - doff) mod ldd <? m))%nat%bool
                            then nth (soff + (k - doff) mod ldd + (k - doff) / ldd * lds)%nat src 0 else nth k dst 0)).
      + split; auto. intros k. cbn [Nat.ltb Nat.leb]. rewrite Bool.andb_false_r. reflexivity.
      + intros c d Hc [LD ND]. eapply wp_mono.
        * apply (for_n_inv (fun r e => length e = length dst /\
            forall k, nth k e 0 = if ((doff <=? k) && ((k - doff) / ldd =? c) && ((k - doff) mod ldd <? r))%nat%bool
                            then nth (soff + (k - doff) mod ldd + (k - doff) / ldd * lds)%nat src 0 else nth k d 0)).
          -- split; auto. intros k. cbn [Nat.ltb Nat.leb]. rewrite Bool.andb_false_r. reflexivity.
          -- intros r e Hr [LE NE]. rewrite (rd_ok src _ 0) by (apply HS; auto). cbn [bind]. rewrite wr_ok by (rewrite LE; apply HD; auto).
             apply wp_ok. eexists. split; [reflexivity|]. split; [rewrite length_set_nth; exact LE|]. intros k. rewrite nth_set_nth, NE.
             assert (LK : (doff + r + c * ldd <? length e)%nat = true) by (apply Nat.ltb_lt; rewrite LE; apply HD; auto). rewrite LK, Bool.andb_true_r.
             destruct (Nat.eqb_spec k (doff + r + c * ldd)) as [->|Nk].
             ++ replace (doff + r + c * ldd - doff)%nat with (r + c * ldd)%nat by lia.
                rewrite Nat.mod_add, Nat.div_add, (Nat.div_small r), (Nat.mod_small r) by lia. cbn [Nat.add]. rewrite Nat.eqb_refl.
                destruct (Nat.leb_spec doff (doff + r + c * ldd)); [|lia]. destruct (Nat.ltb_spec r (S r)); [|lia]. reflexivity.
             ++ destruct (Nat.leb_spec doff k); [|reflexivity]. destruct (Nat.eqb_spec ((k - doff) / ldd) c); [|reflexivity]. cbn [andb].
                destruct (Nat.ltb_spec ((k - doff) mod ldd) r), (Nat.ltb_spec ((k - doff) mod ldd) (S r)); auto; try lia. exfalso. apply Nk.
                assert (X := Nat.div_mod (k - doff) ldd). lia.
        * intros e [LE NE]. split; [exact LE|]. intros k. rewrite NE, ND.
          destruct (Nat.leb_spec doff k); [|reflexivity]. cbn [andb]. destruct (Nat.ltb_spec ((k - doff) mod ldd) m); rewrite ?Bool.andb_true_r, ?Bool.andb_false_r; [|reflexivity].
          destruct (Nat.eqb_spec ((k - doff) / ldd) c), (Nat.ltb_spec ((k - doff) / ldd) c), (Nat.ltb_spec ((k - doff) / ldd) (S c)); auto; lia.
    - auto.
  Qed.

  Lemma dist_import_ok t o p N M keep (D : list F) E : (0 < p)%nat -> (0 < N)%nat -> N = (p * (N / p))%nat -> (M / p = N / p)%nat -> (N / p <= table_max)%nat ->
    length D = (N * N)%nat -> (forall r, (r < p * p)%nat -> good_schedules (N / p) (E r)) ->
    exists A : dist, dist_import t o p N M keep D E = Ok A /\ tp A = p /\ tN A = N /\ tM A = M /\ tprec A = false /\
      dist_ok t A /\ dist_roomy A /\ meq N (gmx A) (fcut t keep (placed o (N / p) (dmat o N D))).
  Proof.
    intros Hp H0 HN HM HT HL HE. unfold dist_import. assert (Hn : (0 < N / p)%nat) by nia.
    assert (M <> 0%nat) by (intros ->; rewrite Nat.div_0_l in HM by lia; lia).
    destruct (Nat.eqb_spec M 0) as [|_]; [lia|]. rewrite setup_ok by auto. cbn [bind]. rewrite HM.
    destruct (Nat.ltb_spec (N / p) (N / p)) as [|_]; [lia|]. destruct (Nat.eqb_spec (N / p) 0) as [|_]; [lia|].
    generalize dependent (N / p)%nat. intros n HN HM HT HE Hn.
    assert (DN : (N / p = n)%nat) by (rewrite HN, Nat.mul_comm; apply Nat.div_mul; lia).
    match goal with |- context [each (p * p) ?f] => destruct (each_ok (p * p) f (fun r b => part_of t p n n (fcut t keep (placed o n (dmat o N D))) r b)) as (l & -> & LL & HQ) end.
    - intros r Hr. assert (HI := row_lt p r Hr). assert (HJ := col_lt p r Hp).
      replace (if (r =? 0)%nat then 0%nat else (N * n * cart_row p r + n * cart_col p r)%nat) with (N * n * cart_row p r + n * cart_col p r)%nat.
      2:{ destruct (Nat.eqb_spec r 0) as [->|]; [|reflexivity]. unfold cart_row, cart_col. rewrite Nat.div_0_l, Nat.mod_0_l by lia. lia. }
      unfold part_of. generalize dependent (cart_row p r). intros I HI. generalize dependent (cart_col p r). intros J HJ.
      destruct (lacpy_ok n D (N * n * I + n * J) N (repeat 0 (n * n)) 0 n) as (buf & -> & LB & NB).
      { exact (le_n n). }
      { intros a b Ha Hb. rewrite HL. assert (n * J + a < N)%nat by nia. assert (n * I + b < N)%nat by nia. nia. }
      { intros a b Ha Hb. rewrite repeat_length. nia. }
      cbn [bind]. rewrite repeat_length in LB.
      destruct (sh_import t o n n keep buf (E r) Hn (le_n n) HT (HE r Hr) LB) as (b & EB & SB & MB). exists b. split; [exact EB|]. split; [exact SB|].
      eapply meq_trans; [exact MB|].
      assert (X : meq n (dmat o n buf) (sub n I J (placed o n (dmat o N D)))).
      { intros i j Hi Hj. destruct o; unfold dmat, sub, placed.
        - rewrite NB, Nat.sub_0_r, Nat.div_add_l, (Nat.div_small j), (Nat.add_comm (i * n)), Nat.mod_add, (Nat.mod_small j), Nat.add_0_r by lia.
          destruct (Nat.ltb_spec i n), (Nat.ltb_spec j n); try lia. cbn [Nat.leb andb]. f_equal. ring.
        - rewrite NB, Nat.sub_0_r, Nat.div_add, (Nat.div_small i), Nat.mod_add, (Nat.mod_small i) by lia. cbn [Nat.add].
          destruct (Nat.ltb_spec i n), (Nat.ltb_spec j n); try lia. cbn [Nat.leb andb].
          rewrite !Nat.div_add_l, !(Nat.div_small _ n), !(Nat.add_comm (_ * n)), !Nat.mod_add, !Nat.mod_small by lia. f_equal. ring. }
      intros i j Hi Hj. destruct t; cbn [fcut]; unfold mcut, sub; rewrite X by auto; reflexivity.
    - cbn [bind]. eexists. split; [reflexivity|]. do 4 (split; [reflexivity|]).
      assert (HN' : N = (p * (N / p))%nat) by congruence.
      destruct (made_ok t p N M false (fcut t keep (placed o n (dmat o N D))) l Hp H0 HN' LL) as (O & R & Q).
      { intros r d Hr. rewrite DN, HM. apply HQ, Hr. }
      auto.
  Qed.

  (** the array written by export *)
  Lemma dist_export_ok t (A : dist) o E : dist_ok t A -> dist_roomy A -> (forall r, (r < tasks A)%nat -> good_schedules (tn A) (E r)) ->
    exists D, dist_export A o E = Ok D /\ length D = (tN A * tN A)%nat /\ meq (tN A) (placed o (tn A) (dmat o (tN A) D)) (gmx A).
  Proof.
    intros OA RA HE. pose proof OA as ((Hp & Hn & HN) & _). unfold dist_export. set (n := tn A) in *. set (p := tp A) in *.
    match goal with |- context [each (tasks A) ?f] => destruct (each_ok (tasks A) f (fun r b => length b = (n * n)%nat /\ meq n (dmat o n b) (sub n (cart_row p r) (cart_col p r) (gmx A)))) as (bufs & -> & LL & HQ) end.
    { intros r Hr. destruct (here t A OA RA r Hr) as [SA MA]. destruct (sh_export t n (tM A / p) (blk A r) o (E r) (HE r Hr) SA) as (D & ED & LD & MD).
      exists D. split; [exact ED|]. split; [exact LD|]. eapply meq_trans; eauto. }
    cbn [bind].
    (* position k of the array belongs to the task of its block *)
    set (N := tN A) in *.
    assert (NN : (n <= N)%nat) by nia.
    pose (I := fun k => (k / N / n)%nat). pose (J := fun k => ((k mod N) / n)%nat).
    pose (val := fun k => nth ((k / N) mod n * n + (k mod N) mod n)%nat (nth (cart_rank p (I k) (J k)) bufs []) 0).
    apply wp_ok. eapply wp_mono.
    - apply (for_n_inv (fun r D => length D = (N * N)%nat /\ forall k, (k < N * N)%nat -> nth k D 0 = if (cart_rank p (I k) (J k) <? r)%nat then val k else 0)).
      + split; [apply repeat_length|]. intros k Hk. apply nth_repeat.
      + intros r D Hr [LD ND]. rewrite (rd_ok bufs r []) by lia. cbn [bind]. assert (HI := row_lt p r Hr). assert (HJ := col_lt p r Hp).
        replace (if (r =? 0)%nat then 0%nat else (n * N * cart_row p r + n * cart_col p r)%nat) with (n * N * cart_row p r + n * cart_col p r)%nat.
        2:{ destruct (Nat.eqb_spec r 0) as [->|]; [|reflexivity]. unfold cart_row, cart_col. rewrite Nat.div_0_l, Nat.mod_0_l by lia. lia. }
        assert (RO := rank_of p r Hp). destruct (HQ r [] Hr) as [LB _].
        assert (BND : forall a b, (a < n)%nat -> (b < n)%nat -> (n * cart_col p r + a < N /\ n * cart_row p r + b < N)%nat) by (intros; rewrite HN; nia).
        destruct (lacpy_ok n (nth r bufs []) 0 n D (n * N * cart_row p r + n * cart_col p r) N) as (D' & ED & LD' & ND').
        { rewrite HN. nia. } { intros a b Ha Hb. rewrite LB. nia. } { intros a b Ha Hb. rewrite LD. destruct (BND a b Ha Hb). nia. }
        rewrite ED. apply wp_ok. eexists. split; [reflexivity|]. split; [congruence|]. intros k Hk. rewrite ND', ND by exact Hk.
        assert (NP : N <> 0%nat) by lia. assert (DK := Nat.div_mod k N NP). assert (MK := Nat.mod_upper_bound k N NP).
        assert (DI := Nat.div_mod (k / N) n ltac:(lia)). assert (MI := Nat.mod_upper_bound (k / N) n ltac:(lia)).
        assert (DJ := Nat.div_mod (k mod N) n ltac:(lia)). assert (MJ := Nat.mod_upper_bound (k mod N) n ltac:(lia)).
        fold (I k) in DI. fold (J k) in DJ.
        assert (KJ : (J k < p)%nat) by (apply Nat.div_lt_upper_bound; lia).
        destruct (Nat.eq_dec (cart_rank p (I k) (J k)) r) as [ER|NR].
        * assert (RI : cart_row p r = I k) by (rewrite <- ER; apply rank_row, KJ). assert (RJ : cart_col p r = J k) by (rewrite <- ER; apply rank_col, KJ).
          assert (KK : (k - (n * N * cart_row p r + n * cart_col p r) = (k mod N) mod n + (k / N) mod n * N)%nat) by (rewrite RI, RJ; nia).
          rewrite KK, Nat.mod_add, Nat.div_add by lia. rewrite (Nat.div_small _ N), (Nat.mod_small _ N) by lia.
          rewrite ER. destruct (Nat.ltb_spec r (S r)); [|lia]. cbn [Nat.add].
          destruct (Nat.leb_spec (n * N * cart_row p r + n * cart_col p r) k); [|rewrite RI, RJ in *; nia].
          destruct (Nat.ltb_spec ((k / N) mod n) n), (Nat.ltb_spec ((k mod N) mod n) n); try lia. cbn [andb]. unfold val. rewrite ER. f_equal. lia.
        * match goal with |- (if ?c then _ else _) = _ => assert (CF : c = false) end.
          { apply Bool.not_true_is_false. intros C. apply andb_prop in C as [C C3]. apply andb_prop in C as [C1 C2].
            apply Nat.leb_le in C1. apply Nat.ltb_lt in C2, C3. apply NR.
            set (q := (k - (n * N * cart_row p r + n * cart_col p r))%nat) in *. assert (DQ := Nat.div_mod q N NP).
            destruct (BND (q mod N) (q / N)%nat C3 C2) as [B1 B2].
            assert (K1 : (k = (n * cart_row p r + q / N) * N + (n * cart_col p r + q mod N))%nat) by (transitivity (n * N * cart_row p r + n * cart_col p r + (N * (q / N) + q mod N))%nat; [rewrite <- DQ; unfold q; lia|ring]).
            assert (K2 : (k / N = n * cart_row p r + q / N)%nat) by (rewrite K1, Nat.div_add_l, (Nat.div_small (n * cart_col p r + q mod N) N) by lia; lia).
            assert (K3 : (k mod N = n * cart_col p r + q mod N)%nat) by (rewrite K1, Nat.add_comm, Nat.mod_add, (Nat.mod_small (n * cart_col p r + q mod N) N) by lia; lia).
            unfold I, J. rewrite K2, K3, !(Nat.mul_comm n), !Nat.div_add_l, !(Nat.div_small _ n), !Nat.add_0_r by lia. exact RO. }
          rewrite CF. destruct (Nat.ltb_spec (cart_rank p (I k) (J k)) r), (Nat.ltb_spec (cart_rank p (I k) (J k)) (S r)); auto; lia.
    - intros D [LD ND]. split; [exact LD|]. intros i j Hi Hj.
      assert (V : forall a b, (a < N)%nat -> (b < N)%nat -> nth (a * N + b) D 0 = nth (a mod n * n + b mod n)%nat (nth (cart_rank p (a / n) (b / n)) bufs []) 0 /\ (cart_rank p (a / n) (b / n) < tasks A)%nat).
      { intros a b Ha Hb. assert (BA : (a / n < p)%nat) by (apply Nat.div_lt_upper_bound; lia). assert (BB : (b / n < p)%nat) by (apply Nat.div_lt_upper_bound; lia).
        assert (RL : (cart_rank p (a / n) (b / n) < tasks A)%nat) by (apply rank_lt; auto). split; [|exact RL].
        assert (QD : ((a * N + b) / N = a)%nat) by (rewrite Nat.div_add_l, Nat.div_small by lia; lia).
        assert (QM : ((a * N + b) mod N = b)%nat) by (rewrite Nat.add_comm, Nat.mod_add, Nat.mod_small by lia; lia).
        rewrite ND by nia. unfold I, J, val, I, J. rewrite QD, QM. destruct (Nat.ltb_spec (cart_rank p (a / n) (b / n)) (tasks A)); [reflexivity|lia]. }
      assert (BI : (i / n < p)%nat) by (apply Nat.div_lt_upper_bound; lia). assert (BJ : (j / n < p)%nat) by (apply Nat.div_lt_upper_bound; lia).
      assert (MI := Nat.mod_upper_bound i n ltac:(lia)). assert (MJ := Nat.mod_upper_bound j n ltac:(lia)).
      assert (DI := Nat.div_mod i n ltac:(lia)). assert (DJ := Nat.div_mod j n ltac:(lia)).
      destruct o; unfold placed, dmat.
      + destruct (V i j Hi Hj) as [-> RL]. destruct (HQ _ [] RL) as [_ MQ]. specialize (MQ _ _ MI MJ). unfold dmat in MQ. rewrite MQ. unfold sub.
        rewrite rank_row, rank_col by exact BJ. f_equal; lia.
      + assert (A1 : (i / n * n + j mod n < N)%nat) by (rewrite HN; nia). assert (A2 : (j / n * n + i mod n < N)%nat) by (rewrite HN; nia).
        rewrite Nat.add_comm. destruct (V _ _ A1 A2) as [-> RL].
        assert (Q1 : ((i / n * n + j mod n) / n = i / n)%nat) by (rewrite Nat.div_add_l, (Nat.div_small (j mod n)) by lia; lia).
        assert (Q2 : ((i / n * n + j mod n) mod n = j mod n)%nat) by (rewrite Nat.add_comm, Nat.mod_add, Nat.mod_small by lia; lia).
        assert (Q3 : ((j / n * n + i mod n) / n = j / n)%nat) by (rewrite Nat.div_add_l, (Nat.div_small (i mod n)) by lia; lia).
        assert (Q4 : ((j / n * n + i mod n) mod n = i mod n)%nat) by (rewrite Nat.add_comm, Nat.mod_add, Nat.mod_small by lia; lia).
        rewrite Q1, Q3 in *. rewrite Q2, Q4. destruct (HQ _ [] RL) as [_ MQ]. specialize (MQ _ _ MI MJ). unfold dmat in MQ. rewrite Nat.add_comm, MQ.
        unfold sub. rewrite rank_row, rank_col by exact BJ. f_equal; lia.
  Qed.

  Lemma placed_twice o n (X : mat F) i j : (0 < n)%nat -> placed o n (placed o n X) i j = X i j.
  Proof.
    intros Hn. destruct o; [reflexivity|]. unfold placed.
    assert (Q : forall a b, ((a / n * n + b mod n) / n = a / n /\ (a / n * n + b mod n) mod n = b mod n)%nat).
    { intros a b. assert (H := Nat.mod_upper_bound b n ltac:(lia)). rewrite Nat.div_add_l, (Nat.div_small (b mod n)) by lia.
      rewrite Nat.add_comm, (Nat.add_comm (a / n * n)), Nat.mod_add, Nat.mod_mod by lia. auto. }
    destruct (Q i j) as [-> ->], (Q j i) as [-> ->].
    f_equal; rewrite (Nat.mul_comm _ n), <- Nat.div_mod by lia; reflexivity.
  Qed.
  Lemma dist_round_trip t o p N M keep (D : list F) E E' : (0 < p)%nat -> (0 < N)%nat -> N = (p * (N / p))%nat -> (M / p = N / p)%nat -> (N / p <= table_max)%nat ->
    length D = (N * N)%nat -> (forall r, (r < p * p)%nat -> good_schedules (N / p) (E r)) -> (forall r, (r < p * p)%nat -> good_schedules (N / p) (E' r)) ->
    exists (A : dist) D', dist_import t o p N M keep D E = Ok A /\ dist_export A o E' = Ok D' /\ length D' = (N * N)%nat /\
      meq N (dmat o N D') (fcut t keep (dmat o N D)).
  Proof.
    intros Hp H0 HN HM HT HL HE HE'. destruct (dist_import_ok t o p N M keep D E) as (A & EA & TP & TN & TM & _ & OA & RA & MA); auto.
    assert (Hn : (0 < N / p)%nat) by nia. assert (TT : tn A = (N / p)%nat) by (unfold tn; congruence).
    destruct (dist_export_ok t A o E' OA RA) as (D' & ED & LD & MD). { intros r Hr. unfold tasks in Hr. rewrite TP in Hr. rewrite TT. apply HE', Hr. }
    rewrite TN, TT in *. exists A, D'. do 3 (split; [assumption|]). intros i j Hi Hj.
    set (n := (N / p)%nat) in *.
    assert (BI : (i / n < p)%nat) by (apply Nat.div_lt_upper_bound; lia). assert (BJ : (j / n < p)%nat) by (apply Nat.div_lt_upper_bound; lia).
    assert (MI := Nat.mod_upper_bound i n ltac:(lia)). assert (MJ := Nat.mod_upper_bound j n ltac:(lia)).
    assert (FP : forall X : mat F, fcut t keep (placed o n X) = placed o n (fcut t keep X)) by (intros X; destruct t, o; reflexivity).
    rewrite <- (placed_twice o n (dmat o N D')), <- (placed_twice o n (fcut t keep (dmat o N D))) by exact Hn.
    destruct o; unfold placed at 1 3.
    - rewrite MD, MA, FP by auto. reflexivity.
    - rewrite MD, MA, FP by nia. reflexivity.
  Qed.

  (** imported matrices have no precision: the operations that select on it fail *)
  Lemma imported_unusable t o p N M keep (D : list F) E (A : dist) : dist_import t o p N M keep D E = Ok A ->
    (forall keep nz alpha beta E, dist_multiply keep nz alpha beta A E = Err) /\ (forall i order, dist_get_row A i order = Err) /\
    (forall keep i row, dist_set_row keep A i row = Err) /\ (forall keep diag, dist_set_diagonal keep A diag = Err).
  Proof.
    intros H. assert (P : tprec A = false).
    { unfold dist_import in H. destruct (M =? 0)%nat; [discriminate|]. destruct (dist_setup p N); try discriminate. cbn [bind] in H.
      destruct (_ <? _)%nat; [discriminate|]. destruct (_ =? _)%nat; [discriminate|].
      match type of H with bind ?e _ = _ => destruct e; try discriminate end. injection H as <-. reflexivity. }
    unfold dist_multiply, dist_get_row, dist_set_row, dist_set_diagonal. rewrite P. auto.
  Qed.
End DistIO.
