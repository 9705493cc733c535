(** Concrete memories, and loops that do have data races. *)
From Verif Require Import Base BaseFacts Spec SpecFacts EllpackModel EllpackSpec EllpackFacts EllpackCheck
  ThreadModel ThreadFacts RaceModel RaceSpec.

(** a memory given by its arrays *)
Section Mem.
  Context {F : scalar}.
  Fixpoint mem_of (l : list (arr * (list nat + list F))) : mem loc (val F) :=
    match l with
    | [] => fun _ => None
    | (a, xs) :: l => fun p => if arr_eq_dec a (fst p)
        then match xs with inl xs => option_map VN (nth_error xs (snd p)) | inr xs => option_map VK (nth_error xs (snd p)) end
        else mem_of l p
    end.
  Definition obj (o : nat) (A : ell F) : list (arr * (list nat + list F)) :=
    [(aVal o, inr (eval A)); (aIdx o, inl (eidx A)); (aNnz o, inl (ennz A))].
  Definition wso (t : nat) (w : wsp F) : list (arr * (list nat + list F)) :=
    [(aIx t, inl (wix w)); (aJx t, inl (wjx w)); (aX t, inr (wx w))].

  (** the threads of [tr] make one step each *)
  Definition step1 (t : nat) (s : mstate loc (val F)) : option (mstate loc (val F)) :=
    match th s t with
    | Rd l k => match me s l with Some v => Some (mkM (upd_fun (th s) t (k v)) (lk s) (me s)) | None => None end
    | Wr l v p => match me s l with Some _ => Some (mkM (upd_fun (th s) t p) (lk s) (mset loc_eq_dec (me s) l v)) | None => None end
    | Acq q p => match lk s q with None => Some (mkM (upd_fun (th s) t p) (upd_fun (lk s) q (Some t)) (me s)) | Some _ => None end
    | Rel q p => match lk s q with Some t' => if t' =? t then Some (mkM (upd_fun (th s) t p) (upd_fun (lk s) q None) (me s)) else None | None => None end
    | _ => None
    end.
  Fixpoint exec (tr : list nat) (s : mstate loc (val F)) : option (mstate loc (val F)) :=
    match tr with
    | [] => Some s
    | t :: tr => match step1 t s with Some s' => exec tr s' | None => None end
    end.
  Lemma step1_ok t s s' : step1 t s = Some s' -> mstep loc_eq_dec t s s'.
  Proof.
    destruct s as [P Q m]. unfold step1. simpl. destruct (P t) eqn:E; try discriminate.
    - destruct (m l) eqn:El; [|discriminate]. intros X. injection X as <-. eapply ms_rd; eauto.
    - destruct (m l) eqn:El; [|discriminate]. intros X. injection X as <-. eapply ms_wr; eauto. congruence.
    - destruct (Q q) eqn:EQ; [discriminate|]. intros X. injection X as <-. eapply ms_acq; eauto.
    - destruct (Q q) eqn:EQ; [|discriminate]. destruct (Nat.eqb_spec n t); [|discriminate]. subst.
      intros X. injection X as <-. eapply ms_rel; eauto.
  Qed.
  Lemma exec_ok tr s s' : exec tr s = Some s' -> reachable loc_eq_dec s s'.
  Proof.
    intros H. exists tr. revert s H. induction tr as [|t tr IH]; simpl; intros s H.
    - injection H as <-. constructor.
    - destruct (step1 t s) eqn:E; [|discriminate]. econstructor; [apply step1_ok; eauto|auto].
  Qed.
  (** a trace after which threads [t] and [t'] are about to access cell [l],
      thread [t] to write it *)
  Lemma race_by body sched m tr t t' l w :
    t <> t' ->
    match exec tr (start body sched m) with
    | Some s => next_access (th s t) = Some (l, true) /\ next_access (th s t') = Some (l, w)
    | None => False
    end -> has_race body sched m.
  Proof.
    intros Hne H. destruct (exec tr (start body sched m)) as [s|] eqn:E; [|destruct H].
    exists s. split; [eapply exec_ok; eauto|]. exists t, t', l, true, w. destruct H. auto.
  Qed.
End Mem.

(** ** Loops with data races *)
Definition raA : ell Zscalar := @mkEll Zscalar 2 2 [4; 5; 6; 0]%Z [0; 1; 1; 0] [2; 1].
Definition raS : list (nat * nat) := [(0, 0); (1, 1)].
Definition raM : mem loc (val Zscalar) := mem_of (obj 0 raA).

Ltac holds_now := split; [|split]; intros k; reflexivity.

Lemma adjungate_race :
  exists (A : ell Zscalar) sched m, wf A /\ Permutation (map snd sched) (seq 0 (eN A)) /\
    (forall i j, j < i -> i < eN A -> emat A i j = k0) /\ holds m 0 A /\
    has_race (p_adjungate_row (fun x => x) (eN A) (eM A)) sched m.
Proof.
  exists raA, raS, raM. split; [apply wfb_ok; reflexivity|]. split; [apply permb_ok; reflexivity|].
  split; [intros [|[|i]] [|[|j]] H1 H2; simpl in *; try lia; reflexivity|]. split; [holds_now|].
  apply (race_by _ _ _ (repeat 0 10) 0 1 (aNnz 0, 1) false); [discriminate|]. vm_compute. split; reflexivity.
Qed.

(** rand() in a parallel loop: already after one access *)
Lemma banded_race (F : scalar) (next : nat -> nat) (out : nat -> F) N M (m : mem loc (val F)) s0 :
  2 <= N -> 0 < M -> m (aRand, 0) = Some (VN s0) ->
  has_race (p_banded_row next out N M) (map (fun i => (i, i)) (seq 0 N)) m.
Proof.
  intros HN HM Hr. apply (race_by _ _ _ [0] 0 1 (aRand, 0) false); [discriminate|].
  destruct N as [|[|N]]; try lia.
  assert (Hrow : forall t i, i < S (S N) -> exists lo n,
     p_banded_row next out (S (S N)) M t i =
     pbind (pforM (lo :: seq (S lo) n) (fun j jind =>
       pbind (p_rand next out) (fun r =>
       pbind (p_wval 0 (S (S N)) M i jind r) (fun _ => pbind (p_widx 0 (S (S N)) M i jind j) (fun _ => Ret (S jind))))) 0)
       (fun jind => p_wnnz 0 i jind)).
  { intros t i Hi. unfold p_banded_row. pose proof (Nat.div_lt M 2 HM ltac:(lia)) as Hd.
    remember (Nat.min (S (S N)) (i + (M - M / 2)) - (i - M / 2)) as c eqn:Ec.
    destruct c as [|c]; [lia|]. exists (i - M / 2), c. reflexivity. }
  destruct (Hrow 0 0 ltac:(lia)) as (lo0 & n0 & E0). destruct (Hrow 1 1 ltac:(lia)) as (lo1 & n1 & E1).
  assert (T0 : exists p, thread_prog (p_banded_row next out (S (S N)) M) (map (fun i => (i, i)) (seq 0 (S (S N)))) 0 =
     pbind (p_banded_row next out (S (S N)) M 0 0) p) by (eexists; reflexivity).
  assert (T1 : exists p, thread_prog (p_banded_row next out (S (S N)) M) (map (fun i => (i, i)) (seq 0 (S (S N)))) 1 =
     pbind (p_banded_row next out (S (S N)) M 1 1) p) by (eexists; reflexivity).
  destruct T0 as (q0 & T0). destruct T1 as (q1 & T1).
  cbn [exec]. unfold step1. unfold start at 1. cbn [th]. rewrite T0, E0. unfold p_rand, rdn. cbn [pforM pbind].
  unfold start at 1. cbn [me]. rewrite Hr. cbn [th]. unfold upd_fun. cbn [Nat.eqb].
  unfold start. cbn [th]. rewrite T1, E1. split; reflexivity.
Qed.

(** A * B stored in B: thread 0 reads row 1 of B while thread 1 writes it *)
Definition rbA : ell Zscalar := @mkEll Zscalar 2 2 [3; 0; 2; 0]%Z [1; 0; 0; 0] [1; 1].
Definition rbM : mem loc (val Zscalar) :=
  mem_of (obj 0 raA ++ obj 1 rbA ++ wso 0 (ws_new k0 2) ++ wso 1 (ws_new k0 2)).

Definition rcX : ell Zscalar := @mkEll Zscalar 2 2 [3; 0; 2; 7]%Z [1; 0; 0; 1] [1; 2].
Definition rcM : mem loc (val Zscalar) := mem_of (obj 0 rcX ++ wso 0 (ws_new k0 2) ++ wso 1 (ws_new k0 2)).

Lemma multiply_same_BC_race :
  exists (keep : Zscalar -> bool) (A B : ell Zscalar) sched m, wf A /\ wf B /\ eN A = eN B /\
    Permutation (map snd sched) (seq 0 (eN A)) /\ (forall i, i < eN A -> prod_cols A B i <= eM B) /\
    holds m 0 B /\ holds m 1 A /\ (forall t, In t (map fst sched) -> holds_ws m t (ws_new k0 (eN B))) /\
    has_race (p_mul_row keep 1 0 (eN B) (eM A) (eM B) (eM B)) sched m.
Proof.
  exists (gtZ 0), rbA, raA, raS, rbM. split; [apply wfb_ok; reflexivity|]. split; [apply wfb_ok; reflexivity|].
  split; [reflexivity|]. split; [apply permb_ok; reflexivity|].
  split; [intros [|[|i]] Hi; simpl in Hi; try lia; vm_compute; lia|].
  split; [holds_now|]. split; [holds_now|].
  split; [intros t [<-|[<-|[]]]; holds_now|].
  apply (race_by _ _ _ (repeat 0 4 ++ repeat 1 35) 1 0 (aNnz 0, 1) false); [discriminate|]. vm_compute. split; reflexivity.
Qed.

(** and the result depends on the order *)
Lemma multiply_same_BC_wrong :
  exists (keep : Zscalar -> bool) (A B C : ell Zscalar) sched m s, wf A /\ wf B /\ eN A = eN B /\
    Permutation (map snd sched) (seq 0 (eN A)) /\ (forall i, i < eN A -> prod_cols A B i <= eM B) /\
    holds m 0 B /\ holds m 1 A /\ (forall t, In t (map fst sched) -> holds_ws m t (ws_new k0 (eN B))) /\
    reachable loc_eq_dec (start (p_mul_row keep 1 0 (eN B) (eM A) (eM B) (eM B)) sched m) s /\ finished s /\
    holds (me s) 0 C /\ emat C 0 0 <> mcut_offdiag keep (mmul (eN A) (emat A) (emat B)) 0 0.
Proof.
  set (s0 := start (p_mul_row (gtZ 0) 1 0 2 2 2 2) raS rbM).
  set (tr := repeat 1 36 ++ repeat 0 36).
  assert (X : match exec tr s0 with Some _ => true | None => false end = true) by (vm_compute; reflexivity).
  destruct (exec tr s0) as [s|] eqn:E; [clear X|discriminate].
  exists (gtZ 0), rbA, raA, (@mkEll Zscalar 2 2 [24; 30; 8; 10]%Z [0; 1; 0; 1] [2; 2]), raS, rbM, s.
  split; [apply wfb_ok; reflexivity|]. split; [apply wfb_ok; reflexivity|].
  split; [reflexivity|]. split; [apply permb_ok; reflexivity|].
  split; [intros [|[|i]] Hi; simpl in Hi; try lia; vm_compute; lia|].
  split; [holds_now|]. split; [holds_now|].
  split; [intros t [<-|[<-|[]]]; holds_now|].
  split; [eapply exec_ok; exact E|].
  split; [intros [|[|t]]|split; [split; [|split]; intros [|[|[|[|k]]]]|vm_compute; discriminate]].
  all: match goal with
    | |- th ?s ?t = _ => match goal with E : exec ?tr ?s0 = _ |- _ =>
        assert (X : option_map (fun s => th s t) (exec tr s0) = Some (Ret tt)) by (vm_compute; reflexivity);
        rewrite E in X; injection X as X; exact X end
    | |- me ?s ?l = ?r => match goal with E : exec ?tr ?s0 = _ |- _ =>
        assert (X : option_map (fun s => me s l) (exec tr s0) = Some r) by (vm_compute; reflexivity);
        rewrite E in X; injection X as X; exact X end
    end.
Qed.

(** X * X stored in X *)
Lemma multiply_x2_same_race :
  exists (keep : Zscalar -> bool) (X : ell Zscalar) sched m, wf X /\
    Permutation (map snd sched) (seq 0 (eN X)) /\ (forall i, i < eN X -> prod_cols X X i <= eM X) /\
    holds m 0 X /\ (forall t, In t (map fst sched) -> holds_ws m t (ws_new k0 (eN X))) /\
    has_race (p_mul_row keep 0 0 (eN X) (eM X) (eM X) (eM X)) sched m.
Proof.
  exists (gtZ 0), rcX, raS, rcM. split; [apply wfb_ok; reflexivity|].
  split; [apply permb_ok; reflexivity|].
  split; [intros [|[|i]] Hi; simpl in Hi; try lia; vm_compute; lia|].
  split; [holds_now|].
  split; [intros t [<-|[<-|[]]]; holds_now|].
  apply (race_by _ _ _ (repeat 0 4 ++ repeat 1 45) 1 0 (aNnz 0, 1) false); [discriminate|]. vm_compute. split; reflexivity.
Qed.

(** ** Memories that meet the hypotheses of the theorems *)
Definition exM_mul (C : ell Zscalar) : mem loc (val Zscalar) :=
  mem_of (F := Zscalar) (obj 0 C ++ obj 1 exA ++ obj 2 exB ++ wso 0 (ws_new k0 3) ++ wso 1 (ws_new k0 3)).
Definition exM_add : mem loc (val Zscalar) :=
  mem_of (obj 0 exA ++ obj 1 exB ++ wso 0 (ws_new k0 3) ++ wso 1 (ws_new k0 3)).
Definition exM_exp : mem loc (val Zscalar) := mem_of (F := Zscalar) ((aDense 0, inr (repeat 0%Z 9)) :: obj 1 exA).
Definition exM_tr : mem loc (val Zscalar) := mem_of (F := Zscalar) ([(aAcc 0, inr [0%Z]); (aAcc 1, inr [0%Z])] ++ obj 1 exA).
Definition exM_imp (Z : ell Zscalar) (D : list Zscalar) : mem loc (val Zscalar) := mem_of (F := Zscalar) ((aDense 1, inr D) :: obj 0 Z).
Definition exM_transp : mem loc (val Zscalar) :=
  mem_of (obj 0 (ell_noinit 3 3 (fun k => Z.of_nat k : Zscalar) (fun k => k)) ++ obj 1 exA).
