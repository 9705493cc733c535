(** bml_add_norm_ellblock: where it returns, its matrix is the one bml_add_ellblock
    makes in the order 0, 1, ... of the rows. *)
From Verif Require Import Base BaseFacts Spec SpecFacts EllpackModel EllpackSpec EllblockModel EllblockSpec EllblockFacts EllblockHeap EllblockRead EllblockBuild EllblockMake EllblockSet EllblockCopy EllblockWork EllblockAdd EllblockAddNormModel.
From Coq Require Import Permutation.

Lemma bind_inv {X Y} (m : res X) (f : X -> res Y) y : bind m f = Ok y -> exists x, m = Ok x /\ f x = Ok y.
Proof. destruct m; cbn; intros H; try discriminate. eauto. Qed.
Lemma forM_sim {X S T} (p : S -> T) (f : X -> S -> res S) (h : X -> T -> res T) :
  (forall x s s', f x s = Ok s' -> h x (p s) = Ok (p s')) ->
  forall l s s', forM l f s = Ok s' -> forM l h (p s) = Ok (p s').
Proof.
  intros H. induction l as [|x l IH]; cbn [forM]; intros s s' E.
  - injection E as <-. auto.
  - apply bind_inv in E as (s1 & E1 & E). rewrite (H _ _ _ E1). cbn [bind]. auto.
Qed.
Ltac inv_bind H :=
  match type of H with
  | bind _ _ = Ok _ => let x := fresh "x" in let E := fresh "E" in apply bind_inv in H as (x & E & H)
  end.

Section AddNormFacts.
  Context {F : scalar}.
  Local Notation eb := (eb F).
  Implicit Types A B : eb.

  Definition xof (s : @an_row F) : wsp (list F) * nat := let '(w, _, l) := s in (w, l).

  Lemma an_touch_sim ib jb n s s' : an_touch ib jb n s = Ok s' -> bws_touch ib jb n (xof s) = Ok (xof s').
  Proof.
    destruct s as [[w ys] l]. unfold an_touch. intros H. inv_bind H. inv_bind H. destruct x0 as [w1 l1]. inv_bind H. injection H as <-. exact E0.
  Qed.
  Lemma an_acc_sim bs NB MB B a b ib s s' : an_acc bs NB MB B a b ib s = Ok s' -> badd_acc bs NB MB B a ib (xof s) = Ok (xof s').
  Proof.
    unfold an_acc, badd_acc. intros H. inv_bind H. rewrite E. cbn [bind].
    revert H. apply (forM_sim xof). clear. intros jp s1 s2 H1. cbv zeta in *. inv_bind H1. inv_bind H1. inv_bind H1. inv_bind H1. rewrite E. cbn [bind]. rewrite E0. cbn [bind]. rewrite E1. cbn [bind].
    rewrite (an_touch_sim _ _ _ _ _ E2). destruct x2 as [[w ys] l]. cbn [xof bind]. inv_bind H1. inv_bind H1. inv_bind H1. inv_bind H1. inv_bind H1.
    injection H1 as <-. rewrite E3. cbn [bind]. rewrite E4. cbn [bind]. reflexivity.
  Qed.

  Definition rof (s : eb * wsp (list F) * list (list F) * F) : eb * wsp (list F) := let '(A, w, _, _) := s in (A, w).

  Definition lof (s : eb * wsp (list F) * list (list F) * F * nat) : eb * wsp (list F) * nat := let '(A, w, _, _, ll) := s in (A, w, ll).

  Lemma an_iter_sim (keep : F -> bool) alpha beta B (g : nat -> F) ib s s' : alpha <> k0 -> beta <> k0 ->
    an_iter keep alpha beta B ib s = Ok s' -> badd_row keep alpha beta B g ib (rof s) = Ok (rof s').
  Proof.
    intros Ha Hb. assert (Ea : keqb alpha k0 = false) by (destruct (keqb alpha k0) eqn:E; auto; apply keqb_spec in E; tauto).
    assert (Eb : keqb beta k0 = false) by (destruct (keqb beta k0) eqn:E; auto; apply keqb_spec in E; tauto).
    destruct s as [[[A w] ys] t]. unfold an_iter, badd_row. cbn [rof]. rewrite Ea, Eb. intros H.
    inv_bind H. apply an_acc_sim in E. cbn [xof] in E. rewrite E. cbn [bind].
    inv_bind H. apply an_acc_sim in E0. rewrite E0. cbn [bind]. destruct x0 as [[w1 ys1] l]. cbn [xof].
    inv_bind H. rewrite E1. cbn [bind]. inv_bind H. destruct x1 as [[[[A2 w2] ys2] t2] ll]. inv_bind H. injection H as <-. cbn [rof].
    apply (forM_sim lof _ (fun jp '(A, w, ll) =>
      jb <- rd (wjx w) jp ;;
      x <- rd (wx w) jb ;;
      bi <- b_bs A ib ;; bj <- b_bs A jb ;;
      above <- blk_above keep (bi * bj)%nat x ;;
      '(A, ll) <- (if (above : bool) then
          let kb := b_at A ib ll in
          p <- rd (bptr A) kb ;;
          A <- match p with None => b_alloc A kb (bi * bj)%nat g | Some _ => Ok A end ;;
          y <- b_blk A kb ;; y <- blk_copy (bi * bj)%nat x y ;; A <- b_wblk A kb y ;;
          A <- b_widx A kb jb ;;
          Ok (A, S ll)
        else Ok (A, ll)) ;;
      w <- bws_upd jb (blk_zero (bi * bj)%nat) w ;;
      ix <- wr (wix w) jb 0%nat ;;
      Ok (A, mkWs ix (wjx w) (wx w), ll))) in E2.
    { cbn [lof] in E2. unfold for_n. rewrite E2. cbn [bind]. rewrite E3. reflexivity. }
    clear. intros jp [[[[A w] ys] t] ll] s2 H. cbn [lof]. inv_bind H. inv_bind H. inv_bind H. inv_bind H. inv_bind H. inv_bind H. inv_bind H. inv_bind H.
    destruct x6 as [A1 ll1]. inv_bind H. inv_bind H. inv_bind H. inv_bind H. injection H as <-.
    rewrite E. cbn [bind]. rewrite E0. cbn [bind]. rewrite E2. cbn [bind]. rewrite E3. cbn [bind]. rewrite E4. cbn [bind].
    match goal with |- context [bind (if x4 then ?u else ?v) _] => assert (HH : (if x4 then u else v) = Ok (A1, ll1)) end.
    { destruct x4; [|exact E6]. cbv zeta in *. inv_bind E6. inv_bind E6. inv_bind E6. inv_bind E6. unfold b_blk in E11. inv_bind E11.
      rewrite E15. cbn [bind]. destruct x13 as [p|]; [|discriminate]. cbn [bind]. unfold b_blk. rewrite E15. cbn [bind]. rewrite E11. cbn [bind]. rewrite E12. cbn [bind]. rewrite E13. cbn [bind]. rewrite E14. cbn [bind]. exact E6. }
    rewrite HH. cbn [bind]. rewrite E7. cbn [bind]. rewrite E10. cbn [bind]. reflexivity.
  Qed.

  Lemma upd_fun_eq {W} (w : nat -> W) i x : upd_fun w i x i = x.
  Proof. unfold upd_fun. rewrite Nat.eqb_refl. reflexivity. Qed.
  Lemma an_loop_sim (keep : F -> bool) alpha beta B (g : nat -> F) : alpha <> k0 -> beta <> k0 -> forall l s s' w,
    w 0 = snd (rof s) -> forM l (an_iter keep alpha beta B) s = Ok s' ->
    exists w', par_for (map (fun i => (0, i)) l) (fun ib s => badd_row keep alpha beta B g ib s) (fst (rof s)) w = Ok (fst (rof s'), w').
  Proof.
    intros Ha Hb. induction l as [|i l IH]; cbn [forM map par_for]; intros s s' w Hw H.
    - injection H as <-. eauto.
    - inv_bind H. apply (an_iter_sim _ _ _ _ g) in E; auto. rewrite Hw, <- surjective_pairing, E. cbn [bind]. destruct (rof x) as [A1 w1] eqn:Ex.
      destruct (IH x s' (upd_fun w 0 w1)) as (w' & H'); auto.
      + rewrite upd_fun_eq, Ex. reflexivity.
      + rewrite Ex in H'. cbn [fst] in H'. eauto.
  Qed.
  Lemma seq_full n : full_sched n 1 (map (fun i => (0, i)) (seq 0 n)).
  Proof.
    split.
    - rewrite map_map. cbn [snd]. rewrite map_id. apply Permutation_refl.
    - intros t i Hp. apply in_map_iff in Hp as (j & E & _). injection E as <- _. lia.
  Qed.

  (** where bml_add_norm_ellblock returns, A is the sum *)
  Theorem eb_add_norm_sum (keep : F -> bool) (alpha beta : F) A B A' t : ebwf A -> tidy A -> ebwf B -> eb_dims A B -> bMB A = bMB B ->
    add_fits keep alpha beta A B -> alpha <> k0 -> beta <> k0 ->
    (forall ib jb, ib < bNB A -> jb < bNB A -> bsz (bbs A) ib * bsz (bbs A) jb <= BMAXSIZE) ->
    eb_add_norm keep alpha beta A B = Ok (A', t) ->
    ebwf A' /\ tidy A' /\ same_dims A A' /\
    meq (bN A) (ebmx A') (bcut (bbs A) keep (madd (mscale alpha (ebmx A)) (mscale beta (ebmx B)))).
  Proof.
    intros HW HT HWB D DM Hf Ha Hb Hm H. unfold eb_add_norm in H. inv_bind H. destruct x as [[[A1 w1] ys1] t1]. injection H as <- <-.
    destruct (badd_loop_ok keep alpha beta A B (fun _ => k0) 1 _ BMAXSIZE HW HT HWB D DM Hf (seq_full (bNB A)) Hm) as (A2 & w & E' & W2 & T2 & _ & D2 & V).
    apply (an_loop_sim _ _ _ _ (fun _ => k0) Ha Hb) with (w := fun _ => bws_new (bNB A) BMAXSIZE) in E as (w' & E2); [|reflexivity].
    cbn [rof fst] in E2. rewrite E' in E2. injection E2 as <- _. auto.
  Qed.
End AddNormFacts.
