(** The dense loops: memories that meet the hypotheses, and the race of
    bml_fnorm2_dense. *)
From Verif Require Import Base BaseFacts Spec SpecFacts EllpackModel EllpackSpec EllpackFacts EllpackCheck
  DenseModel DenseSpec DenseCheck ThreadModel ThreadFacts RaceModel RaceModel2 RaceSpec RaceSim RaceCheck RaceDense.

Lemma step_rd (F : scalar) (s : mstate loc (val F)) t l k v : th s t = Rd l k -> me s l = Some v ->
  exists s', step1 t s = Some s' /\ th s' t = k v /\ me s' = me s /\ (forall u, u <> t -> th s' u = th s u).
Proof.
  intros E Em. unfold step1. rewrite E, Em. eexists. split; [reflexivity|]. cbn [th me].
  split; [apply upd_fun_same|]. split; [reflexivity|]. intros u Hu. now apply upd_fun_other.
Qed.

Lemma fnorm2_to_write (F : scalar) (s : mstate loc (val F)) t j q a b :
  th s t = pbind (p_dense_fnorm2 t j) q -> me s (aDense 1, j) = Some (VK a) -> me s (aDense 2, j) = Some (VK b) ->
  exists s', exec [t; t] s = Some s' /\ next_access (th s' t) = Some ((aDense 3, 0), true) /\
    me s' = me s /\ (forall u, u <> t -> th s' u = th s u).
Proof.
  intros E Ea Eb.
  destruct (step_rd F s t _ _ _ E Ea) as (s1 & S1 & T1 & M1 & O1).
  rewrite <- M1 in Eb. destruct (step_rd F s1 t _ _ _ T1 Eb) as (s2 & S2 & T2 & M2 & O2).
  exists s2. cbn [exec]. rewrite S1, S2. split; [reflexivity|]. split; [rewrite T2; reflexivity|].
  split; [congruence|]. intros u Hu. rewrite O2, O1; auto.
Qed.

(** whenever two threads have at least one cell each *)
Lemma dense_fnorm2_race (F : scalar) (A B : dense F) sched (m : mem loc (val F)) x t t' i i' :
  dwf A -> dwf B -> dN A = dN B -> Permutation (map snd sched) (seq 0 (dN A * dN A)) ->
  holdsK m (aDense 1) (dmx A) -> holdsK m (aDense 2) (dmx B) -> m (aDense 3, 0) = Some (VK x) ->
  In (t, i) sched -> In (t', i') sched -> t <> t' ->
  has_race (F:=F) p_dense_fnorm2 sched m.
Proof.
  intros HA HB HN HP H1 H2 H3 Hi Hi' Hne.
  destruct (first_iteration (F:=F) p_dense_fnorm2 sched t i Hi) as (j & q & Hj & E).
  destruct (first_iteration (F:=F) p_dense_fnorm2 sched t' i' Hi') as (j' & q' & Hj' & E').
  assert (Hb : forall u k, In (u, k) sched -> k < dN A * dN A).
  { intros u k Hk. apply (in_map snd) in Hk. eapply Permutation_in in Hk; [|exact HP]. apply in_seq in Hk. simpl in Hk. lia. }
  pose proof (Hb _ _ Hj) as L. pose proof (Hb _ _ Hj') as L'.
  assert (RA : forall k, k < dN A * dN A -> exists y, m (aDense 1, k) = Some (VK y)).
  { intros k Hk. unfold dwf in HA. rewrite <- HA in Hk. destruct (nth_error_lt _ _ Hk) as (y & Ey). exists y. rewrite H1, Ey. reflexivity. }
  assert (RB : forall k, k < dN A * dN A -> exists y, m (aDense 2, k) = Some (VK y)).
  { intros k Hk. rewrite HN in Hk. unfold dwf in HB. rewrite <- HB in Hk. destruct (nth_error_lt _ _ Hk) as (y & Ey). exists y. rewrite H2, Ey. reflexivity. }
  destruct (RA _ L) as (a & Ea). destruct (RB _ L) as (b & Eb).
  destruct (RA _ L') as (a' & Ea'). destruct (RB _ L') as (b' & Eb').
  apply (race_by _ _ _ [t; t; t'; t'] t t' (aDense 3, 0) true Hne).
  destruct (fnorm2_to_write F (start p_dense_fnorm2 sched m) t j q a b E Ea Eb) as (s1 & S1 & T1 & M1 & O1).
  assert (E1 : th s1 t' = pbind (p_dense_fnorm2 t' j') q') by (rewrite O1 by auto; exact E').
  destruct (fnorm2_to_write F s1 t' j' q' a' b' E1) as (s2 & S2 & T2 & M2 & O2); [rewrite M1; assumption..|].
  change [t; t; t'; t'] with ([t; t] ++ [t'; t']).
  assert (X : forall tr tr' s s', exec tr s = Some s' -> exec (F:=F) (tr ++ tr') s = exec tr' s').
  { induction tr as [|u tr IH]; intros tr' s s' Hs; cbn [app exec] in *; [congruence|].
    destruct (step1 u s); [auto|discriminate]. }
  rewrite (X _ _ _ _ S1), S2. split; [rewrite O2 by auto; exact T1|exact T2].
Qed.

Definition exM_d (a b c : dense Zscalar) : mem loc (val Zscalar) :=
  mem_of (F := Zscalar) [(aDense 0, inr (dmx a)); (aDense 1, inr (dmx b)); (aDense 2, inr (dmx c));
    (aDense 3, inr [0%Z : Zscalar]); (aAcc 0, inr [0%Z : Zscalar]); (aAcc 1, inr [0%Z : Zscalar])].
