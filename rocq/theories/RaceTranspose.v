(** transpose_new under all interleavings: the rows of the result are filled
    under row locks. *)
From Verif Require Import Base BaseFacts Spec SpecFacts EllpackModel EllpackSpec EllpackFacts
  EllpackArith EllpackMul EllpackMul2 EllpackMore EllpackOps ThreadModel ThreadFacts ThreadLocks RaceModel RaceSpec RaceSim RaceLoops RacePar RaceEll RaceEll2.

(** row r of object 0 belongs to lock r, everything else is only read *)
Definition own_lock (M : nat) (l : loc) : owner :=
  match fst l with
  | aVal 0 | aIdx 0 => OfLock (snd l / M)
  | aNnz 0 => OfLock (snd l)
  | _ => Shared
  end.

Section Transpose.
  Context {F : scalar}.
  Local Notation mem := (mem loc (val F)).
  Local Notation pr := (prog loc (val F)).
  Local Notation mset := (mset loc_eq_dec).

  (** one more insertion *)
  Lemma tr_step (A : ell F) pre i j B : wf A -> NoDup (pre ++ [(i, j)]) ->
    (forall i' j', In (i', j') (pre ++ [(i, j)]) -> i' < eN A /\ j' < nnz A i') ->
    (forall r, r < eN A -> colcount A r <= eM A) ->
    same_dims A B -> shape B -> (forall r, r < eN A -> erow B r = trrow A pre r) ->
    exists B', e_push B (fst (sl A (i, j))) i (snd (sl A (i, j))) = Ok B' /\
      nnz B (fst (sl A (i, j))) < eM A /\ fst (sl A (i, j)) < eN A /\ same_dims A B' /\ shape B' /\
      (forall r, r < eN A -> erow B' r = trrow A (pre ++ [(i, j)]) r).
  Proof.
    intros Hw Hd Hin Hcap (D1 & D2) HsB HB. pose proof Hw as [Hs Hr].
    destruct (Hin i j) as [Hi Hj]; [apply in_app_iff; right; left; auto|].
    set (k := fst (sl A (i, j))). set (v := snd (sl A (i, j))).
    assert (Hk : k < eN A).
    { apply (Hr i Hi). unfold k, sl, cols. simpl. apply in_map. apply nth_In. rewrite erow_length. auto. }
    assert (Hsub : forall r, r < eN A -> length (trrow A (pre ++ [(i, j)]) r) <= eM A).
    { intros r H. eapply Nat.le_trans; [apply trrow_len; auto|apply Hcap; auto]. }
    assert (Htr : forall r, trrow A (pre ++ [(i, j)]) r = trrow A pre r ++ (if k =? r then [(i, v)] else [])).
    { intros r. unfold trrow. rewrite filter_app, map_app. f_equal. simpl. fold k. destruct (k =? r); auto. }
    assert (Hn : nnz B k < eM A).
    { rewrite <- erow_length, HB by auto. pose proof (Hsub k Hk) as Hc.
      rewrite Htr, Nat.eqb_refl, app_length in Hc. simpl in Hc. lia. }
    destruct (e_push_ok B k i v) as (B' & E1 & HU); auto; [lia|lia|].
    exists B'. split; [exact E1|]. split; [exact Hn|]. split; [exact Hk|].
    pose proof HU as ((U1 & U2) & U3 & _). split; [split; congruence|]. split; [auto|].
    intros r Hrr. rewrite Htr. destruct (Nat.eqb_spec k r) as [<-|Hne].
    - rewrite (upd_row_self _ _ _ _ HU). rewrite HB by auto. auto.
    - rewrite app_nil_r. rewrite (upd_row_other _ _ _ _ _ HU); auto.
      rewrite <- erow_length, HB by auto. pose proof (Hsub r Hrr) as Hc.
      rewrite Htr, app_length in Hc. lia.
  Qed.

  Variable A : ell F.
  Hypothesis HA : wf A.
  Local Notation N := (eN A).
  Local Notation M := (eM A).
  Local Notation ahead := (ahead loc_eq_dec (own_lock M)).
  Local Notation col i j := (fst (sl A (i, j))).
  Local Notation vl i j := (snd (sl A (i, j))).

  Lemma cell_idx i j (m : mem) : holds m 1 A -> i < N -> j < nnz A i -> m (aIdx 1, ROWMAJOR i j N M) = Some (VN (col i j)).
  Proof.
    intros (_ & H & _) Hi Hj. rewrite (H _). pose proof (wf_nnz A i HA Hi) as Hn. destruct HA as [(S1 & S2 & S3) _].
    unfold ROWMAJOR, sl, erow. simpl. rewrite slots_nth by auto. simpl.
    rewrite (nth_error_nth' (eidx A) 0) by nia. reflexivity.
  Qed.
  Lemma cell_val i j (m : mem) : holds m 1 A -> i < N -> j < nnz A i -> m (aVal 1, ROWMAJOR i j N M) = Some (VK (vl i j)).
  Proof.
    intros (H & _ & _) Hi Hj. rewrite (H _). pose proof (wf_nnz A i HA Hi) as Hn. destruct HA as [(S1 & S2 & S3) _].
    unfold ROWMAJOR, sl, erow. simpl. rewrite slots_nth by auto. simpl.
    rewrite (nth_error_nth' (eval A) k0) by nia. reflexivity.
  Qed.
  Lemma cell_nnz o (B : ell F) i (m : mem) : holds m o B -> shape B -> i < eN B -> m (aNnz o, i) = Some (VN (nnz B i)).
  Proof.
    intros (_ & _ & H) (S1 & S2 & S3) Hi. rewrite (H _). unfold nnz.
    rewrite (nth_error_nth' (ennz B) 0) by lia. reflexivity.
  Qed.

  (** [p1] performs the insertion of slot (i,j) under its lock and goes on as [p'] *)
  Definition sect_ok (t i j : nat) (p1 p' : pr unit) : Prop :=
    forall (m : mem) (B B' : ell F), holds m 1 A -> holds m 0 B -> same_dims A B -> shape B ->
      col i j < N -> nnz B (col i j) < M -> e_push B (col i j) i (vl i j) = Ok B' ->
      exists m', ahead t (Some (col i j)) p1 m = ahead t None p' m' /\ holds m' 1 A /\ holds m' 0 B'.

  (** [c] is at the lock of the first of the slots [l] and then treats the others *)
  Fixpoint TC (t : nat) (l : list (nat * nat)) (c : pr unit) : Prop :=
    match l with
    | [] => c = Ret tt
    | (i, j) :: l => exists p1 p' c', c = Acq (col i j) p1 /\ sect_ok t i j p1 p' /\
        (forall m : mem, holds m 1 A -> ahead t None p' m = Some (c', m)) /\ TC t l c'
    end.
  Definition tail (t : nat) (l : list (nat * nat)) (p : pr unit) : Prop :=
    exists c, (forall m : mem, holds m 1 A -> ahead t None p m = Some (c, m)) /\ TC t l c.

  Lemma tail_ext t l p p2 : (forall m : mem, holds m 1 A -> ahead t None p m = ahead t None p2 m) ->
    tail t l p2 -> tail t l p.
  Proof. intros H (c & H1 & H2). exists c. split; [|auto]. intros m Hm. rewrite H by auto. auto. Qed.

  Definition body (t i j : nat) (_ : unit) : pr unit :=
    pbind (p_nnz 1 i) (fun n' =>
      if j <? n' then
        pbind (p_idx 1 N M i j) (fun trow =>
        Acq trow (
          pbind (p_nnz 0 trow) (fun colcnt =>
          pbind (p_widx 0 N M trow colcnt i) (fun _ =>
          pbind (p_val 1 N M i j) (fun v =>
          pbind (p_wval 0 N M trow colcnt v) (fun _ =>
          pbind (p_nnz 0 trow) (fun c =>
          pbind (p_wnnz 0 trow (S c)) (fun _ =>
          Rel trow (Ret tt)))))))))
      else Ret tt).

  Lemma rowdiv r c : c < M -> (ROWMAJOR r c N M) / M = r.
  Proof. intros H. unfold ROWMAJOR. rewrite Nat.div_add_l by lia. rewrite Nat.div_small by lia. lia. Qed.

  Lemma tail_slot t i j l (f : unit -> pr unit) (g : unit -> pr unit) : i < N -> j < nnz A i ->
    tail t l (pbind (f tt) g) -> tail t ((i, j) :: l) (pbind (pbind (body t i j tt) f) g).
  Proof.
    intros Hi Hj (c & Hc & HT). eexists. split.
    - intros m Hm. unfold body, p_nnz, p_idx, rdn. cbn [pbind ThreadFacts.ahead].
      change (can_read (own_lock M) t None (aNnz 1, i)) with true. cbv iota.
      rewrite (cell_nnz 1 A i m Hm (proj1 HA) Hi). cbn [pbind].
      destruct (Nat.ltb_spec j (nnz A i)); [|lia]. cbn [pbind ThreadFacts.ahead].
      change (can_read (own_lock M) t None (aIdx 1, ROWMAJOR i j N M)) with true. cbv iota.
      rewrite (cell_idx i j m Hm Hi Hj). cbn [pbind ThreadFacts.ahead]. reflexivity.
    - cbn [TC]. eexists. exists (pbind (f tt) g), c. split; [reflexivity|]. split; [|auto].
      intros m B B' H1 H0 (D1 & D2) HsB Hcol Hn Hp.
      set (r := col i j) in *.
      assert (Hr : r < eN B) by lia.
      pose proof HsB as (S1 & S2 & S3).
      set (p := ROWMAJOR r (nnz B r) N M).
      assert (Hp1 : p < length (eval B)) by (unfold p, ROWMAJOR; rewrite S1; nia).
      assert (Hp2 : p < length (eidx B)) by (unfold p, ROWMAJOR; rewrite S2; nia).
      pose proof (cell_nnz 0 B r m H0 HsB Hr) as Ennz.
      destruct (nth_error_lt (eidx B) p Hp2) as (xi & Exi).
      destruct (nth_error_lt (eval B) p Hp1) as (xv & Exv).
      pose proof H0 as (Hv & Hi0 & Hnn).
      pose proof (holds_idx m B p i H0 Hp2) as H0a.
      pose proof (holds_val _ _ p (vl i j) H0a Hp1) as H0b.
      assert (Hr3 : r < length (ennz B)) by lia.
      pose proof (holds_nnz _ _ r (S (nnz B r)) H0b Hr3) as H0c. cbn [eN eM eval eidx ennz] in H0a, H0b, H0c.
      eexists. split; [|split].
      + unfold p_nnz, p_widx, p_val, p_wval, p_wnnz, rdn, rdk, wrn, wrk. cbn [pbind ThreadFacts.ahead].
        assert (C1 : can_read (own_lock M) t (Some r) (aNnz 0, r) = true).
        { unfold can_read, can_write, own_lock. simpl. apply Nat.eqb_refl. }
        assert (C2 : can_write (own_lock M) t (Some r) (aNnz 0, r) = true).
        { unfold can_write, own_lock. simpl. apply Nat.eqb_refl. }
        rewrite C1, Ennz. cbn [pbind ThreadFacts.ahead]. fold p.
        assert (C3 : can_write (own_lock M) t (Some r) (aIdx 0, p) = true).
        { unfold can_write, own_lock. cbn [fst snd]. unfold p. rewrite rowdiv by auto. apply Nat.eqb_refl. }
        assert (C4 : can_write (own_lock M) t (Some r) (aVal 0, p) = true).
        { unfold can_write, own_lock. cbn [fst snd]. unfold p. rewrite rowdiv by auto. apply Nat.eqb_refl. }
        rewrite C3, (Hi0 p), Exi. cbn [option_map pbind ThreadFacts.ahead].
        change (can_read (own_lock M) t (Some r) (aVal 1, ROWMAJOR i j N M)) with true. cbv iota.
        rewrite mset_other by discriminate. rewrite (cell_val i j m H1 Hi Hj). cbn [pbind ThreadFacts.ahead]. fold p.
        rewrite C4, mset_other, (Hv p), Exv by discriminate. cbn [option_map pbind ThreadFacts.ahead].
        rewrite C1, !mset_other, Ennz by discriminate. cbn [pbind ThreadFacts.ahead].
        rewrite C2, !mset_other, Ennz by discriminate. cbn [pbind ThreadFacts.ahead].
        rewrite Nat.eqb_refl. reflexivity.
      + repeat (apply holds_other; try discriminate). exact H1.
      + replace B' with (mkEll (eN B) (eM B) (set_nth (eval B) p (vl i j)) (set_nth (eidx B) p i) (set_nth (ennz B) r (S (nnz B r)))).
        { exact H0c. }
        unfold e_push, e_put, e_wval, e_widx, e_wnnz, e_nnz, wr, rd in Hp.
        rewrite (nth_error_nth' (ennz B) 0) in Hp by lia. cbn [bind] in Hp. fold (nnz B r) in Hp.
        assert (EP : ROWMAJOR r (nnz B r) (eN B) (eM B) = p) by (unfold p, ROWMAJOR; congruence).
        rewrite EP in Hp. destruct (Nat.ltb_spec p (length (eval B))); [|lia]. cbn [bind eN eM eval eidx ennz] in Hp.
        rewrite EP in Hp. destruct (Nat.ltb_spec p (length (eidx B))); [|lia]. cbn [bind eN eM eval eidx ennz] in Hp.
        destruct (Nat.ltb_spec r (length (ennz B))); [|lia]. cbn [bind] in Hp. injection Hp as <-. reflexivity.
  Qed.

  Lemma tail_row t i l p : i < N -> tail t l p -> forall k j, j + k <= nnz A i ->
    tail t (map (pair i) (seq j k) ++ l) (pbind (pforM (seq j k) (body t i) tt) (fun _ => p)).
  Proof.
    intros Hi Hp. induction k as [|k IH]; intros j Hj; [exact Hp|].
    cbn [seq map app pforM]. apply (tail_slot t i j _ (fun s' => pforM (seq (S j) k) (body t i) s') (fun _ => p)); [auto|lia|].
    apply IH. lia.
  Qed.

  (** the slots that thread [t] treats, in its order *)
  Definition todo (sched : list (nat * nat)) (t : nat) : list (nat * nat) :=
    flat_map (fun '(t', i) => if t' =? t then map (pair i) (seq 0 (nnz A i)) else []) sched.

  Lemma tail_thread sched t : (forall t i, In (t, i) sched -> i < N) ->
    tail t (todo sched t) (thread_prog (p_transpose_row N M) sched t).
  Proof.
    induction sched as [|[t' i] rest IH]; intros Hin.
    - exists (Ret tt). split; [reflexivity|reflexivity].
    - cbn [todo flat_map thread_prog]. fold (todo rest t).
      assert (IH' := IH (fun t i H => Hin t i (or_intror H))).
      destruct (Nat.eqb_spec t' t) as [->|Hne]; [|exact IH'].
      assert (Hi : i < N) by (eapply Hin; left; reflexivity).
      eapply tail_ext; [|eapply (tail_row t i _ _ Hi IH' (nnz A i) 0); lia].
      intros m Hm. unfold p_transpose_row. unfold p_nnz at 1. unfold rdn at 1. cbn [pbind ThreadFacts.ahead].
      change (can_read (own_lock M) t None (aNnz 1, i)) with true. cbv iota.
      rewrite (cell_nnz 1 A i m Hm (proj1 HA) Hi). cbn [pbind]. reflexivity.
  Qed.

  Hypothesis Hcap : forall r, r < N -> colcount A r <= M.
  Variables (gv : nat -> F) (gi : nat -> nat).
  Variable ts : list nat.
  Hypothesis Hts : NoDup ts.

  Local Notation ins := (fun '(i, j) B => bind (e_idx A i j) (fun trow => bind (e_val A i j) (fun v => e_push B trow i v))).

  Definition TI (C : nat -> pr unit) (cm : mem) : Prop :=
    exists (rem : nat -> list (nat * nat)) done B,
      holds cm 1 A /\ holds cm 0 B /\ same_dims A B /\ shape B /\
      (forall r, r < N -> erow B r = trrow A done r) /\
      forM done ins (ell_noinit N M gv gi) = Ok B /\
      Permutation (done ++ flat_map rem ts) (all_slots A) /\
      (forall t, TC t (rem t) (C t)) /\ (forall t, ~ In t ts -> rem t = []).

  Lemma flat_map_upd (rem : nat -> list (nat * nat)) t l l' : In t l -> NoDup l ->
    forall x, rem t = x :: l' -> Permutation (flat_map rem l) (x :: flat_map (upd_fun rem t l') l).
  Proof.
    intros Hin Hnd x E. induction l as [|t0 l IH]; [destruct Hin|]. inversion Hnd; subst. simpl.
    assert (Hfm : forall l, ~ In t l -> flat_map (upd_fun rem t l') l = flat_map rem l).
    { clear. induction l as [|y l IH]; simpl; intros H; [reflexivity|].
      rewrite upd_fun_other by (intros ->; tauto). rewrite IH by tauto. reflexivity. }
    destruct (Nat.eq_dec t0 t) as [->|Hne].
    - rewrite upd_fun_same, E, Hfm by auto. reflexivity.
    - rewrite upd_fun_other by auto. destruct Hin as [->|Hin]; [congruence|].
      etransitivity; [apply Permutation_app_head; apply IH; auto|]. symmetry. apply Permutation_middle.
  Qed.

  Lemma TI_step C cm t q p : TI C cm -> C t = Acq q p ->
    exists p1 m1, ahead t (Some q) p cm = Some (p1, m1) /\ TI (upd_fun C t p1) m1.
  Proof.
    intros (rem & done & B & H1 & H0 & D & HsB & HB & Hf & HP & HT & Hout) HC.
    pose proof (HT t) as Ht. destruct (rem t) as [|[i j] l] eqn:Er; simpl in Ht; [congruence|].
    destruct Ht as (p1 & p' & c' & Ec & Hsec & Hp' & HTl).
    rewrite Ec in HC. injection HC as <- <-.
    assert (Hint : In t ts).
    { destruct (in_dec Nat.eq_dec t ts); [auto|]. rewrite Hout in Er by auto. discriminate. }
    pose proof (flat_map_upd rem t ts l Hint Hts (i, j) Er) as HPm.
    assert (HP' : Permutation ((done ++ [(i, j)]) ++ flat_map (upd_fun rem t l) ts) (all_slots A)).
    { rewrite <- app_assoc. etransitivity; [|exact HP]. apply Permutation_app_head. symmetry. exact HPm. }
    assert (Hnd : NoDup (done ++ [(i, j)])).
    { assert (Hx := Permutation_NoDup (Permutation_sym HP') (NoDup_all_slots A)).
      apply NoDup_app_inv in Hx. tauto. }
    assert (Hin : forall i' j', In (i', j') (done ++ [(i, j)]) -> i' < N /\ j' < nnz A i').
    { intros i' j' Hx. apply in_all_slots. apply (Permutation_in _ HP'). apply in_app_iff. auto. }
    destruct (tr_step A done i j B HA Hnd Hin Hcap D HsB HB) as (B' & Epush & Hn & Hc & D' & HsB' & HB').
    destruct (Hsec cm B B' H1 H0 D HsB Hc Hn Epush) as (m' & Ea & Hm1 & Hm0).
    exists c', m'. split; [rewrite Ea; now apply Hp'|].
    exists (upd_fun rem t l), (done ++ [(i, j)]), B'.
    split; [auto|]. split; [auto|]. split; [auto|]. split; [auto|]. split; [auto|]. split.
    { rewrite forM_app, Hf. cbn [bind forM].
      destruct (Hin i j) as [Hi Hj]; [apply in_app_iff; right; left; reflexivity|].
      pose proof (wf_nnz A i HA Hi) as Hnn.
      rewrite e_idx_ok, e_val_ok by (try apply HA; lia). cbn [bind].
      assert (Hsl : (nth (i * eM A + j) (eidx A) 0%nat, nth (i * eM A + j) (eval A) k0) = sl A (i, j)).
      { unfold sl, erow; simpl. rewrite slots_nth by auto. auto. }
      rewrite <- Hsl in Epush. simpl in Epush. rewrite Epush. reflexivity. }
    split; [exact HP'|]. split.
    - intros t'. destruct (Nat.eq_dec t' t) as [->|Hne].
      + rewrite !upd_fun_same. exact HTl.
      + rewrite !upd_fun_other by auto. apply HT.
    - intros t' Ht'. rewrite upd_fun_other; [auto|]. intros ->. contradiction.
  Qed.
End Transpose.

Section TransposeAll.
  Context {F : scalar}.
  Local Notation mem := (mem loc (val F)).

  Lemma flat_map_app_perm {X Y} (a b : X -> list Y) l :
    Permutation (flat_map (fun x => a x ++ b x) l) (flat_map a l ++ flat_map b l).
  Proof.
    induction l as [|x l IH]; simpl; [auto|]. rewrite <- !app_assoc. apply Permutation_app_head.
    etransitivity; [apply Permutation_app_head; exact IH|]. rewrite !app_assoc.
    apply Permutation_app_tail. apply Permutation_app_comm.
  Qed.

  Lemma flat_map_one {Y} t (y : list Y) ts : NoDup ts -> In t ts ->
    flat_map (fun t' => if t =? t' then y else []) ts = y.
  Proof.
    induction ts as [|t0 ts IH]; intros Hn Hin; [destruct Hin|]. inversion Hn; subst. simpl.
    assert (Hnone : forall l, ~ In t l -> flat_map (fun t' => if t =? t' then y else []) l = []).
    { clear. induction l as [|a l IH]; simpl; intros H; [auto|].
      destruct (Nat.eqb_spec t a); [subst; tauto|]. apply IH. tauto. }
    destruct (Nat.eqb_spec t t0) as [->|Hne].
    - rewrite Hnone by auto. apply app_nil_r.
    - destruct Hin as [->|Hin]; [congruence|]. auto.
  Qed.

  Lemma todo_all (A : ell F) sched ts : NoDup ts -> (forall t i, In (t, i) sched -> In t ts) ->
    Permutation (flat_map (todo A sched) ts) (flat_map (fun i => map (pair i) (seq 0 (nnz A i))) (map snd sched)).
  Proof.
    intros Hn. induction sched as [|[t i] rest IH]; intros Hin; simpl.
    - clear. induction ts; simpl; auto.
    - etransitivity; [apply (flat_map_app_perm (fun t' => if t =? t' then map (pair i) (seq 0 (nnz A i)) else []) (todo A rest))|].
      rewrite flat_map_one by (auto; eapply Hin; left; reflexivity).
      apply Permutation_app_head. apply IH. intros. eapply Hin. right; eauto.
  Qed.

  Theorem transpose_all (A : ell F) gv gi sched m :
    wf A -> Permutation (map snd sched) (seq 0 (eN A)) ->
    (forall r, r < eN A -> colcount A r <= eM A) ->
    holds m 0 (ell_noinit (eN A) (eM A) gv gi) -> holds m 1 A ->
    all_interleavings (p_transpose_row (eN A) (eM A)) sched m (fun m' =>
      exists ev B, Permutation ev (all_slots A) /\ ell_transpose_new A ev gv gi = Ok B /\
        holds m' 0 B /\ holds m' 1 A).
  Proof.
    intros HA HP Hcap H0 H1.
    set (ts := nodup Nat.eq_dec (map fst sched)).
    assert (Hts : NoDup ts) by apply NoDup_nodup.
    assert (Hint : forall t i, In (t, i) sched -> In t ts).
    { intros t i Hx. apply nodup_In. apply in_map_iff. exists (t, i). auto. }
    assert (HinN : forall t i, In (t, i) sched -> i < eN A).
    { intros t i Hx. assert (Hy : In i (map snd sched)) by (apply in_map_iff; exists (t, i); auto).
      apply (Permutation_in _ HP) in Hy. apply in_seq in Hy. lia. }
    assert (Htail : forall t, exists c, ThreadFacts.ahead loc_eq_dec (own_lock (eM A)) t None
               (thread_prog (p_transpose_row (eN A) (eM A)) sched t) m = Some (c, m) /\ TC A t (todo A sched t) c).
    { intros t. destruct (tail_thread A HA sched t HinN) as (c & Hc & HT). exists c. auto. }
    assert (HC : exists C, forall t, ThreadFacts.ahead loc_eq_dec (own_lock (eM A)) t None
               (thread_prog (p_transpose_row (eN A) (eM A)) sched t) m = Some (C t, m) /\ TC A t (todo A sched t) (C t)).
    { exists (fun t => match ThreadFacts.ahead loc_eq_dec (own_lock (eM A)) t None
               (thread_prog (p_transpose_row (eN A) (eM A)) sched t) m with Some (c, _) => c | None => Exit end).
      intros t. destruct (Htail t) as (c & E & HT). rewrite E. auto. }
    destruct HC as (C & HC).
    intros s Hr.
    destruct (locks_all loc_eq_dec (own_lock (eM A)) (TI A gv gi ts) (TI_step A HA Hcap gv gi ts Hts) ts
                (start (p_transpose_row (eN A) (eM A)) sched m) C m (fun _ => None)) with (s := s)
      as (R1 & R2 & R3 & R4 & R5); auto.
    - apply inv_start. intros t. apply HC.
    - exists (todo A sched), [], (ell_noinit (eN A) (eM A) gv gi).
      split; [auto|]. split; [auto|]. split; [split; reflexivity|]. split; [apply shape_noinit|]. split.
      { intros r _. rewrite erow_noinit. reflexivity. }
      split; [reflexivity|]. split.
      { simpl. etransitivity; [apply todo_all; auto|]. unfold all_slots. apply Permutation_flat_map. exact HP. }
      split; [intros t; apply HC|]. intros t Ht. unfold todo.
      destruct (flat_map _ sched) as [|x l] eqn:E; [auto|exfalso]. apply Ht.
      assert (Hx : In x (flat_map (fun '(t', i) => if t' =? t then map (pair i) (seq 0 (nnz A i)) else []) sched)).
      { rewrite E. left; reflexivity. }
      apply in_flat_map in Hx as ([t' i] & Hy & Hz). destruct (Nat.eqb_spec t' t); [subst; eauto|destruct Hz].
    - intros t Ht. simpl. apply thread_prog_none. intros Hx. apply Ht. apply nodup_In. exact Hx.
    - split; [auto|]. split; [auto|]. split; [auto|]. split; [auto|].
      intros Hf. destruct (R5 Hf) as (C' & cm & HCr & Hcm & (rem & done & B & K1 & K0 & _ & _ & _ & Kf & KP & KT & Kout)).
      assert (Hrem : forall t, rem t = []).
      { intros t. specialize (KT t). rewrite HCr in KT. destruct (rem t) as [|[i j] l]; [auto|].
        simpl in KT. destruct KT as (p1 & p' & c' & E & _). discriminate. }
      exists done, B. split.
      { rewrite <- (app_nil_r done). replace [] with (flat_map rem ts); [exact KP|].
        clear -Hrem. induction ts; simpl; [auto|]. now rewrite Hrem, IHts. }
      split; [exact Kf|]. split; [eapply holds_ext; [exact K0|]|eapply holds_ext; [exact K1|]]; auto.
  Qed.
End TransposeAll.
