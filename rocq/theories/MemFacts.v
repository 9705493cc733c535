(** Proofs about memory use: the functions of MemModel meet MemSpec. *)
From Coq Require Import Permutation.
From Verif Require Import Base BaseFacts MemModel MemSpec.

(** [uses] with a property of the result *)
Definition usesp {X} (take : list nat) (m : mem X) (give : X -> list nat) (lost : nat) (Q : X -> Prop) : Prop :=
  forall h rest, NoDup (hlive h) -> Permutation (hlive h) (take ++ rest) ->
  exists x h' out, m h = Ok (x, h') /\ NoDup (hlive h') /\ Permutation (hlive h') (give x ++ out ++ rest) /\ length out = lost /\ Q x.

Definition any {X} (_ : X) : Prop := True.

Lemma usesp_uses {X} take (m : mem X) give lost Q : usesp take m give lost Q -> uses take m give lost.
Proof. intros H h rest N P. destruct (H h rest N P) as (x & h' & out & E & N' & P' & L & _). exists x, h', out. auto. Qed.

(** ** Permutations of concatenations *)

Lemma pm_skip (y R x F : list nat) : Permutation R (x ++ F) -> Permutation (y ++ R) (x ++ y ++ F).
Proof. intros H. rewrite H, !app_assoc. apply Permutation_app_tail, Permutation_app_comm. Qed.
Lemma pm_skip1 (y : nat) R (x F : list nat) : Permutation R (x ++ F) -> Permutation (y :: R) (x ++ y :: F).
Proof. intros H. apply (pm_skip [y]). exact H. Qed.
Lemma pm_last (x : list nat) : Permutation x (x ++ []).
Proof. rewrite app_nil_r. apply Permutation_refl. Qed.
Lemma pm_nil (F : list nat) : Permutation F ([] ++ F).
Proof. apply Permutation_refl. Qed.
Lemma pm_assoc (a b c d : list nat) : Permutation (a ++ b ++ c) d -> Permutation ((a ++ b) ++ c) d.
Proof. rewrite <- app_assoc. auto. Qed.

(** find the first list in the second-level concatenation on the left *)
Lemma pm_cons (a : nat) l R d : Permutation (a :: l ++ R) d -> Permutation ((a :: l) ++ R) d.
Proof. auto. Qed.
Lemma pm_head (a : nat) R : Permutation (a :: R) ([a] ++ R).
Proof. apply Permutation_refl. Qed.
Lemma pm_nothing {X} (x : X) R d : Permutation R d -> Permutation (nothing x ++ R) d.
Proof. auto. Qed.
Lemma pm_nil_l (R : list nat) d : Permutation R d -> Permutation ([] ++ R) d.
Proof. auto. Qed.
Ltac pull :=
  lazymatch goal with
  | |- Permutation _ ([] ++ _) => apply pm_nil
  | |- Permutation _ (nothing _ ++ _) => apply pm_nil
  | |- Permutation ?x (?y ++ _) =>
      tryif constr_eq_strict x y then apply pm_last else
      lazymatch x with
      | (_ ++ _) ++ _ => apply pm_assoc; pull
      | nothing _ ++ _ => apply pm_nothing; pull
      | [] ++ _ => apply pm_nil_l; pull
      | y ++ _ => apply Permutation_refl
      | (_ :: _) ++ _ => apply pm_cons; pull
      | _ ++ _ => apply pm_skip; pull
      | ?a :: _ => lazymatch y with [a] => apply pm_head | _ => apply pm_skip1; pull end
      end
  end.

Lemma count_perm (a b : list nat) : (forall x, count_occ Nat.eq_dec a x = count_occ Nat.eq_dec b x) -> Permutation a b.
Proof. apply Permutation_count_occ. Qed.
Lemma count_cons (a : nat) l x : count_occ Nat.eq_dec (a :: l) x = (count_occ Nat.eq_dec [a] x + count_occ Nat.eq_dec l x)%nat.
Proof. change (a :: l) with ([a] ++ l). apply count_occ_app. Qed.
Ltac pcount :=
  apply count_perm; let x := fresh "x" in intro x;
  repeat first
    [ rewrite count_occ_app
    | match goal with
      | |- context [count_occ Nat.eq_dec (?a :: ?l) x] => lazymatch l with nil => fail | _ => rewrite (count_cons a l x) end
      end
    | rewrite count_occ_nil ];
  lia.

(** ** Rules *)

Section Rules.
  Context {X Y : Type}.

  Lemma usesp_ret take (x : X) give (Q : X -> Prop) : Permutation take (give x) -> Q x -> usesp take (mret x) give 0 Q.
  Proof.
    intros H HQ h rest N P. exists x, h, []. split; [reflexivity|]. split; [exact N|]. split; [|split; [reflexivity|exact HQ]].
    rewrite P, H. reflexivity.
  Qed.
  Lemma usesp_lose take out (x : X) give (Q : X -> Prop) : Permutation take (give x ++ out) -> Q x -> usesp take (mret x) give (length out) Q.
  Proof.
    intros H HQ h rest N P. exists x, h, out. split; [reflexivity|]. split; [exact N|]. split; [|split; [reflexivity|exact HQ]].
    rewrite P, H, <- app_assoc. reflexivity.
  Qed.
  Lemma usesp_bind take F T (m : mem X) give (R : X -> Prop) (k : X -> mem Y) G n1 n2 n (Q : Y -> Prop) :
    usesp take m give n1 R -> Permutation T (take ++ F) -> (forall x, R x -> usesp (give x ++ F) (k x) G n2 Q) -> (n1 + n2 = n)%nat -> usesp T (mbind m k) G n Q.
  Proof.
    intros Hm HT Hk En h rest N P.
    destruct (Hm h (F ++ rest) N) as (x & h1 & o1 & E1 & N1 & P1 & L1 & R1).
    { rewrite P, HT, <- app_assoc. reflexivity. }
    destruct (Hk x R1 h1 (o1 ++ rest) N1) as (y & h2 & o2 & E2 & N2 & P2 & L2 & Q2).
    { rewrite P1, <- !app_assoc. apply Permutation_app_head. rewrite !app_assoc. apply Permutation_app_tail, Permutation_app_comm. }
    exists y, h2, (o2 ++ o1). unfold mbind. rewrite E1. cbn [bind]. split; [exact E2|]. split; [exact N2|].
    split; [rewrite P2, <- !app_assoc; reflexivity|]. split; [rewrite app_length; lia|exact Q2].
  Qed.
  Lemma usesp_bind0 take F T (m : mem X) give (R : X -> Prop) (k : X -> mem Y) G n (Q : Y -> Prop) :
    usesp take m give 0 R -> Permutation T (take ++ F) -> (forall x, R x -> usesp (give x ++ F) (k x) G n Q) -> usesp T (mbind m k) G n Q.
  Proof. intros. eapply usesp_bind; eauto. Qed.
  Lemma usesp_mono take F T (m : mem X) give (R : X -> Prop) G n (Q : X -> Prop) :
    usesp take m give n R -> Permutation T (take ++ F) -> (forall x, R x -> Permutation (give x ++ F) (G x)) -> (forall x, R x -> Q x) -> usesp T m G n Q.
  Proof.
    intros Hm HT HG HQ h rest N P.
    destruct (Hm h (F ++ rest) N) as (x & h1 & o1 & E1 & N1 & P1 & L1 & R1).
    { rewrite P, HT, <- app_assoc. reflexivity. }
    exists x, h1, o1. split; [exact E1|]. split; [exact N1|]. split; [|split; [exact L1|auto]].
    rewrite P1, <- (HG x R1), <- !app_assoc. apply Permutation_app_head. rewrite !app_assoc. apply Permutation_app_tail, Permutation_app_comm.
  Qed.
End Rules.



Section Alloc.
  Variable fresh : nat -> list nat -> nat.
  Hypothesis Hf : good_alloc fresh.

  Lemma u_malloc : usesp [] (malloc fresh) (fun p => [p]) 0 any.
  Proof.
    intros h rest N P. eexists _, _, []. split; [reflexivity|]. cbn [hlive]. split; [constructor; [apply Hf|exact N]|].
    split; [|split; [reflexivity|exact I]]. cbn. apply perm_skip. exact P.
  Qed.
  Lemma remove_perm p l : NoDup l -> In p l -> Permutation l (p :: remove Nat.eq_dec p l).
  Proof.
    intros N. induction N as [|x l Hx N IH]; [intros []|]. intros [->|H]; cbn [remove].
    - destruct (Nat.eq_dec p p) as [_|]; [|congruence]. rewrite notin_remove by exact Hx. reflexivity.
    - destruct (Nat.eq_dec p x) as [->|]; [contradiction|]. rewrite perm_swap. apply perm_skip, IH, H.
  Qed.
  Lemma live_in p rest h : Permutation (hlive h) (p :: rest) -> existsb (Nat.eqb p) (hlive h) = true.
  Proof. intros P. apply existsb_exists. exists p. split; [apply (Permutation_in p (Permutation_sym P)); left; reflexivity|apply Nat.eqb_refl]. Qed.
  Lemma u_mfree p : usesp [p] (mfree p) nothing 0 any.
  Proof.
    intros h rest N P. unfold mfree. rewrite (live_in p rest h P). eexists _, _, []. split; [reflexivity|]. cbn [hlive].
    assert (In p (hlive h)) as Hi by (apply (Permutation_in p (Permutation_sym P)); left; reflexivity).
    pose proof (remove_perm p (hlive h) N Hi) as Hr.
    split; [pose proof (Permutation_NoDup Hr N) as Hn; inversion Hn; assumption|].
    split; [|split; [reflexivity|exact I]]. cbn. apply (Permutation_cons_inv (a:=p)). rewrite <- Hr. exact P.
  Qed.
  Lemma u_mfree_opt p : usesp (own_opt p) (mfree_opt p) nothing 0 any.
  Proof. destruct p as [p|]; [apply u_mfree|]. apply usesp_ret; [reflexivity|exact I]. Qed.
  Lemma u_mrealloc b p : usesp [p] (mrealloc fresh b p) (fun q => [q]) 0 any.
  Proof.
    destruct b; cbn [mrealloc].
    - eapply usesp_bind0; [apply u_malloc|pull|intros q _]. eapply usesp_bind0; [apply u_mfree|pull|intros ? _].
      apply usesp_ret; [reflexivity|exact I].
    - intros h rest N P. rewrite (live_in p rest h P). exists p, h, []. repeat split; auto.
  Qed.

  Ltac ubind L := eapply usesp_bind0; [apply L|pull|].
  Ltac um := ubind u_malloc; let p := fresh "p" in intros p _.
  Ltac ufr := ubind u_mfree; intros ? _.
  Ltac uret := apply usesp_ret; [|try exact I].
  Ltac ulast L := eapply usesp_mono; [apply L|pull| |intros; exact I].

  Lemma u_domain : usesp [] (m_default_domain fresh) own_dom 0 any.
  Proof. unfold m_default_domain. do 6 um. uret. unfold own_dom. cbn. pcount. Qed.
  Lemma u_free_domain D : usesp (own_dom D) (m_deallocate_domain D) nothing 0 any.
  Proof. unfold m_deallocate_domain, own_dom. do 5 ufr. ulast u_mfree. intros; cbn; reflexivity. Qed.

  (** ** Dense *)
  Lemma u_noinit_dense : usesp [] (m_noinit_dense fresh) own_dense 0 any.
  Proof.
    unfold m_noinit_dense. do 2 um. ubind u_domain. intros d _. ubind u_domain. intros d2 _. uret.
    unfold own_dense. cbn [de_self de_mat de_dom de_dom2]. pcount.
  Qed.
  Lemma u_free_dense A : usesp (own_dense A) (m_deallocate_dense A) nothing 0 any.
  Proof.
    unfold m_deallocate_dense, own_dense. ubind u_free_domain. intros ? _. ubind u_free_domain. intros ? _. ufr. ulast u_mfree.
    intros; reflexivity.
  Qed.
  Lemma u_array : usesp [] (m_array fresh) (fun p => [p]) 0 any.
  Proof. apply u_malloc. Qed.
  Lemma u_reorder_dense : usesp [] (m_reorder_dense fresh) nothing 0 any.
  Proof. unfold m_reorder_dense. ubind u_noinit_dense. intros B _. ulast u_free_dense. intros; reflexivity. Qed.
  Lemma u_diag_dense c : usesp [] (m_diagonalize_dense fresh c) nothing 0 any.
  Proof.
    destruct c; cbn [m_diagonalize_dense].
    - unfold m_diagonalize_complex. do 7 um. do 6 ufr. ulast u_mfree. intros; reflexivity.
    - unfold m_diagonalize_real. do 3 um. do 2 ufr. ulast u_mfree. intros; reflexivity.
  Qed.
  Lemma u_inv_inplace : usesp [] (m_inverse_inplace_dense fresh) nothing 0 any.
  Proof. unfold m_inverse_inplace_dense. do 2 um. ufr. ulast u_mfree. intros; reflexivity. Qed.
  Lemma u_inverse_dense : usesp [] (m_inverse_dense fresh) own_dense 0 any.
  Proof. unfold m_inverse_dense. ubind u_noinit_dense. intros B _. ubind u_inv_inplace. intros ? _. uret. cbn [nothing app]. pcount. Qed.

  (** ** Ellpack *)
  Lemma u_noinit_ell : usesp [] (m_noinit_ellpack fresh) own_ellpack 0 any.
  Proof.
    unfold m_noinit_ellpack. do 4 um. ubind u_domain. intros d _. ubind u_domain. intros d2 _. uret.
    unfold own_ellpack. cbn [el_self el_index el_nnz el_value el_dom el_dom2]. pcount.
  Qed.
  Lemma u_free_ell A : usesp (own_ellpack A) (m_deallocate_ellpack A) nothing 0 any.
  Proof.
    unfold m_deallocate_ellpack, own_ellpack. ubind u_free_domain. intros ? _. ubind u_free_domain. intros ? _. do 3 ufr. ulast u_mfree.
    intros; reflexivity.
  Qed.
  Lemma u_random_ell : usesp [] (m_random_ellpack fresh) own_ellpack 0 any.
  Proof. unfold m_random_ellpack. ubind u_noinit_ell. intros A _. do 2 um. do 2 ufr. uret. cbn [nothing app]. pcount. Qed.
  Lemma u_reorder_ell : usesp [] (m_reorder_ellpack fresh) nothing 0 any.
  Proof. unfold m_reorder_ellpack. ubind u_noinit_ell. intros B _. ulast u_free_ell. intros; reflexivity. Qed.
  Lemma u_some : usesp [] (t <-- malloc fresh ;; mret (Some t)) own_opt 0 any.
  Proof. um. uret. reflexivity. Qed.
  Lemma u_some_if (b : bool) : usesp [] (if b then (t <-- malloc fresh ;; mret (Some t)) else mret None) own_opt 0 any.
  Proof. destruct b; [apply u_some|uret; reflexivity]. Qed.
  Lemma u_multiply_ell same plain : usesp [] (m_multiply_ellpack fresh same plain) nothing 0 any.
  Proof.
    unfold m_multiply_ellpack. eapply usesp_bind0 with (take := []) (give := own_opt) (R := any).
    - destruct (same && plain); [apply u_some|]. ubind u_noinit_ell. intros A2 _. ubind u_some_if. intros t _.
      ubind u_free_ell. intros ? _. uret. cbn. rewrite app_nil_r. reflexivity.
    - pull.
    - intros t _. ulast u_mfree_opt. intros; reflexivity.
  Qed.
  Lemma u_many {X} (f : mem X) give n : usesp [] f give 0 any -> usesp [] (mmany n f) (fun l => flat_map give l) 0 (fun l => length l = n).
  Proof.
    intros H. induction n as [|n IH]; cbn [mmany].
    - apply usesp_ret; [reflexivity|reflexivity].
    - ubind H. intros x _. ubind IH. intros l Hl. apply usesp_ret; [cbn; rewrite app_nil_r; apply Permutation_app_comm|cbn; rewrite Hl; reflexivity].
  Qed.
  Lemma flat_nothing {X} (l : list X) : flat_map nothing l = [].
  Proof. induction l as [|x l IH]; [reflexivity|exact IH]. Qed.
  Lemma u_each {X} (f : X -> mem unit) own l : (forall x, usesp (own x) (f x) nothing 0 any) -> usesp (flat_map own l) (meach f l) nothing 0 any.
  Proof.
    intros H. induction l as [|x l IH]; cbn [meach flat_map].
    - uret. reflexivity.
    - ubind H. intros ? _. ulast IH. intros; reflexivity.
  Qed.
  Lemma u_vectors n : usesp [] (m_vectors_ellpack fresh n) nothing 0 any.
  Proof.
    unfold m_vectors_ellpack. ubind (@u_many unit (r <-- malloc fresh ;; mfree r) nothing n).
    - um. ulast u_mfree. intros; reflexivity.
    - intros l _. uret. rewrite flat_nothing. reflexivity.
  Qed.
  Lemma u_transpose_new_ell : usesp [] (m_transpose_new_ellpack fresh) own_ellpack 1 any.
  Proof.
    unfold m_transpose_new_ellpack. ubind u_noinit_ell. intros B _. um. apply (usesp_lose _ [p]); [|exact I]. cbn [app]. pcount.
  Qed.
  Lemma u_adjacency : usesp [] (m_adjacency_group_ellpack fresh) nothing 1 any.
  Proof. unfold m_adjacency_group_ellpack. um. apply (usesp_lose _ [p]); [reflexivity|exact I]. Qed.
  Lemma u_diag_ell c : usesp [] (m_diagonalize_ellpack fresh c) nothing 0 any.
  Proof.
    unfold m_diagonalize_ellpack. ubind u_array. intros a _. ubind u_noinit_dense. intros D _. ufr. ubind u_noinit_dense. intros V _.
    ubind u_diag_dense. intros ? _. ubind u_free_dense. intros ? _. ubind u_array. intros v _. ubind u_free_dense. intros ? _.
    ubind u_noinit_ell. intros W _. ufr. ulast u_free_ell. intros; reflexivity.
  Qed.
  Lemma u_inverse_ell : usesp [] (m_inverse_ellpack fresh) own_ellpack 0 any.
  Proof.
    unfold m_inverse_ellpack. ubind u_array. intros a _. ubind u_noinit_dense. intros D _. ufr. ubind u_inv_inplace. intros ? _.
    ubind u_array. intros b _. ubind u_free_dense. intros ? _. ubind u_noinit_ell. intros B _. ufr. uret. cbn [nothing app]. pcount.
  Qed.

  (** ** Csr *)
  Lemma u_row : usesp [] (m_row fresh) own_row 0 any.
  Proof. unfold m_row. do 3 um. uret. unfold own_row. cbn [ro_self ro_cols ro_vals]. pcount. Qed.
  Lemma u_free_row r : usesp (own_row r) (m_deallocate_row r) nothing 0 any.
  Proof. unfold m_deallocate_row, own_row. do 2 ufr. ulast u_mfree. intros; reflexivity. Qed.
  Definition rows_are (N : nat) (A : mcsr) : Prop := length (cs_rows A) = N.
  Lemma u_noinit_csr N : usesp [] (m_noinit_csr fresh N) own_csr 0 (rows_are N).
  Proof.
    unfold m_noinit_csr. do 2 um. ubind (u_many (m_row fresh) own_row N u_row). intros rows HN. apply usesp_ret; [|exact HN].
    unfold own_csr. cbn [cs_self cs_data cs_rows]. pcount.
  Qed.
  Lemma u_free_csr A : usesp (own_csr A) (m_deallocate_csr A) nothing 0 any.
  Proof.
    unfold m_deallocate_csr, own_csr. ubind (u_each m_deallocate_row own_row (cs_rows A) u_free_row). intros ? _. ufr. ulast u_mfree.
    intros; reflexivity.
  Qed.
  Lemma u_map {X Y} (f : X -> mem Y) give l : (forall x, usesp [] (f x) give 0 any) -> usesp [] (mmap f l) (fun r => flat_map give r) 0 (fun r => length r = length l).
  Proof.
    intros H. induction l as [|x l IH]; cbn [mmap].
    - apply usesp_ret; reflexivity.
    - ubind H. intros y _. ubind IH. intros r Hr. apply usesp_ret; [cbn; rewrite app_nil_r; apply Permutation_app_comm|cbn; rewrite Hr; reflexivity].
  Qed.
  Lemma u_copy_csr A : usesp [] (m_copy_new_csr fresh A) own_csr 0 (rows_are (length (cs_rows A))).
  Proof.
    unfold m_copy_new_csr. do 2 um. ubind (u_map (fun _ : mrow => m_row fresh) own_row (cs_rows A) (fun _ => u_row)). intros rows HN.
    apply usesp_ret; [|exact HN]. unfold own_csr. cbn [cs_self cs_data cs_rows]. pcount.
  Qed.
  Lemma u_grow_row mv r : usesp (own_row r) (m_grow_row fresh mv r) own_row 0 any.
  Proof.
    unfold m_grow_row, own_row. ubind u_mrealloc. intros c _. ubind u_mrealloc. intros v _. uret. cbn [ro_self ro_cols ro_vals]. pcount.
  Qed.
  Lemma split_nth {X} (l : list X) i r : nth_error l i = Some r -> exists a b, l = a ++ r :: b /\ length a = i.
  Proof. intros H. apply nth_error_split in H. destruct H as (a & b & -> & L). exists a, b. auto. Qed.
  Lemma set_nth_mid {X} (a b : list X) r r' : set_nth (a ++ r :: b) (length a) r' = a ++ r' :: b.
  Proof. induction a as [|x a IH]; cbn; [reflexivity|]. rewrite IH. reflexivity. Qed.
  Lemma u_grow1 e A N : rows_are N A -> fst e < N -> usesp (own_csr A) (m_grow1 fresh e A) own_csr 0 (rows_are N).
  Proof.
    intros HN He. unfold m_grow1. destruct (nth_error (cs_rows A) (fst e)) as [r|] eqn:E.
    2:{ apply nth_error_None in E. unfold rows_are in HN. lia. }
    destruct (split_nth _ _ _ E) as (a & b & El & La). unfold own_csr at 1. rewrite El, flat_map_app. cbn [flat_map].
    eapply usesp_bind0; [apply u_grow_row| |].
    { change ([cs_self A; cs_data A] ++ flat_map own_row a ++ own_row r ++ flat_map own_row b) with ([cs_self A; cs_data A] ++ (flat_map own_row a ++ own_row r ++ flat_map own_row b)). pull. }
    intros r' _. apply usesp_ret.
    - unfold own_csr. cbn [cs_self cs_data cs_rows]. rewrite <- La, set_nth_mid, flat_map_app. cbn [flat_map]. pcount.
    - unfold rows_are in *. cbn [cs_rows]. rewrite length_set_nth, <- El. exact HN.
  Qed.
  Lemma u_fill N g : forall A, rows_are N A -> grows_in N g -> usesp (own_csr A) (m_fill_csr fresh g A) own_csr 0 (rows_are N).
  Proof.
    induction g as [|e g IH]; intros A HN Hg; cbn [m_fill_csr].
    - apply usesp_ret; [reflexivity|exact HN].
    - inversion Hg as [|? ? He Hg']; subst. eapply usesp_bind0; [apply (u_grow1 e A N HN He)|pull|]. intros B HB.
      eapply usesp_mono; [apply (IH B HB Hg')|pull|intros; rewrite app_nil_r; reflexivity|auto].
  Qed.
  Lemma u_set_row N g A : rows_are N A -> grows_in N g -> usesp (own_csr A) (m_set_row_csr fresh g A) own_csr 0 (rows_are N).
  Proof.
    intros HN Hg. unfold m_set_row_csr. um. ubind (u_fill N g A HN Hg). intros B HB. ufr. apply usesp_ret; [cbn [nothing app]; pcount|exact HB].
  Qed.
  Definition own_table (t : mtable) : list nat := [ta_self t; ta_slots t; ta_storage t].
  Lemma u_table : usesp [] (m_table fresh) own_table 0 any.
  Proof. unfold m_table. do 3 um. uret. unfold own_table. cbn [ta_self ta_slots ta_storage]. pcount. Qed.
  Lemma u_table_grow mv t : usesp (own_table t) (m_table_grow fresh mv t) own_table 0 any.
  Proof.
    unfold m_table_grow, own_table. eapply usesp_bind0 with (take := [ta_storage t]) (give := fun p => [p]) (R := any).
    - generalize (ta_storage t). induction mv as [|b mv IH]; intros p; [uret; reflexivity|]. ubind u_mrealloc. intros q _.
      eapply usesp_mono; [apply IH|pull|intros; rewrite app_nil_r; reflexivity|auto].
    - pull.
    - intros st _. uret. cbn [ta_self ta_slots ta_storage]. pcount.
  Qed.
  Lemma u_free_table t : usesp (own_table t) (m_deallocate_table t) nothing 0 any.
  Proof. unfold m_deallocate_table, own_table. do 2 ufr. ulast u_mfree. intros; reflexivity. Qed.
  Lemma u_new_table mv : usesp [] (t <-- m_table fresh ;; m_table_grow fresh mv t) own_table 0 any.
  Proof. ubind u_table. intros t _. ulast u_table_grow. intros; rewrite app_nil_r; reflexivity. Qed.
  Lemma u_import_csr N g : grows_in N g -> usesp [] (m_import_csr fresh N g) own_csr 0 (rows_are N).
  Proof.
    intros Hg. unfold m_import_csr. ubind (u_noinit_csr N). intros A HA.
    eapply usesp_mono; [apply (u_fill N g A HA Hg)|pull|intros; rewrite app_nil_r; reflexivity|auto].
  Qed.
  Lemma u_random_csr N g : grows_in N g -> usesp [] (m_random_csr fresh N g) own_csr 0 (rows_are N).
  Proof.
    intros Hg. unfold m_random_csr. ubind (u_noinit_csr N). intros A HA. do 2 um. ubind (u_fill N g A HA Hg). intros B HB. do 2 ufr.
    apply usesp_ret; [cbn [nothing app]; pcount|exact HB].
  Qed.
  Lemma u_convert_rows N gs : forall A, rows_are N A -> Forall (grows_in N) gs -> usesp (own_csr A) (m_convert_rows fresh gs A) own_csr 0 (rows_are N).
  Proof.
    induction gs as [|g gs IH]; intros A HA HG; cbn [m_convert_rows].
    - apply usesp_ret; [reflexivity|exact HA].
    - inversion HG as [|? ? Hg HG']; subst. ubind u_array. intros r _. ubind (u_set_row N g A HA Hg). intros B HB. ufr.
      eapply usesp_mono; [apply (IH B HB HG')|cbn [nothing app]; pull|intros; rewrite app_nil_r; reflexivity|auto].
  Qed.
  Lemma u_convert_csr N gs : Forall (grows_in N) gs -> usesp [] (m_convert_csr fresh N gs) own_csr 0 (rows_are N).
  Proof.
    intros HG. unfold m_convert_csr. ubind (u_noinit_csr N). intros A HA.
    eapply usesp_mono; [apply (u_convert_rows N gs A HA HG)|pull|intros; rewrite app_nil_r; reflexivity|auto].
  Qed.
  Lemma u_add_csr N ts g A : rows_are N A -> grows_in N g -> usesp (own_csr A) (m_add_csr fresh ts g A) own_csr 0 (rows_are N).
  Proof.
    intros HA Hg. unfold m_add_csr. ubind (u_map (fun mv => t <-- m_table fresh ;; m_table_grow fresh mv t) own_table ts u_new_table). intros tabs _.
    ubind (u_fill N g A HA Hg). intros B HB. ubind (u_each m_deallocate_table own_table tabs u_free_table). intros ? _.
    apply usesp_ret; [cbn [nothing app]; pcount|exact HB].
  Qed.
  Lemma u_sums_csr ts : usesp [] (m_sums_csr fresh ts) nothing 0 any.
  Proof.
    unfold m_sums_csr. eapply usesp_mono; [eapply (u_each _ nothing ts)|rewrite flat_nothing; pull|intros; reflexivity|auto].
    intros mv. ubind u_table. intros t _. ubind u_table_grow. intros t' _. ulast u_free_table. intros; reflexivity.
  Qed.
  Lemma u_multiply_csr same plain N g1 ts g2 C : rows_are N C -> grows_in N g1 -> grows_in N g2 ->
    usesp (own_csr C) (m_multiply_csr fresh same plain N g1 ts g2 C) own_csr 0 (rows_are N).
  Proof.
    intros HC H1 H2. unfold m_multiply_csr.
    eapply usesp_bind0 with (take := own_csr C) (give := fun tc => own_opt (fst tc) ++ own_csr (snd tc)) (R := fun tc => rows_are N (snd tc)).
    - destruct (same && plain).
      + um. ubind (u_fill N g1 C HC H1). intros C' HC'. apply usesp_ret; [|exact HC']. cbn [fst snd own_opt]. pcount.
      + ubind (u_noinit_csr N). intros A2 HA2. ubind u_some_if. intros t _. ubind (u_fill N g1 A2 HA2 H1). intros A3 HA3.
        ubind (u_add_csr N ts g2 C HC H2). intros C' HC'. ubind u_free_csr. intros ? _. apply usesp_ret; [|exact HC']. cbn [fst snd nothing app]. pcount.
    - pull.
    - intros [t C'] HC'. cbn [fst snd] in *. ubind u_mfree_opt. intros ? _. apply usesp_ret; [cbn [nothing app]; pcount|exact HC'].
  Qed.
  Lemma u_transpose_new_csr N g : grows_in N g -> usesp [] (m_transpose_new_csr fresh N g) own_csr 0 (rows_are N).
  Proof.
    intros Hg. unfold m_transpose_new_csr. ubind (u_noinit_csr N). intros A HA. um. ubind (u_fill N g A HA Hg). intros B HB. ufr.
    apply usesp_ret; [cbn [nothing app]; pcount|exact HB].
  Qed.
  Lemma u_extract_rows N gs : forall A, rows_are N A -> Forall (grows_in N) gs -> usesp (own_csr A) (m_extract_rows fresh gs A) own_csr (2 * length gs) (rows_are N).
  Proof.
    induction gs as [|g gs IH]; intros A HA HG; cbn [m_extract_rows].
    - apply usesp_ret; [reflexivity|exact HA].
    - inversion HG as [|? ? Hg HG']; subst. um. um. ubind (u_fill N g A HA Hg). intros B HB.
      intros h rest Nd P. destruct (IH B HB HG' h ([p0] ++ [p] ++ rest) Nd) as (x & h' & out & E & N' & P' & L & Q).
      { rewrite P. cbn [app]. rewrite ?app_nil_r. pcount. }
      exists x, h', (out ++ [p0] ++ [p]). split; [exact E|]. split; [exact N'|]. split; [rewrite P', <- !app_assoc; reflexivity|].
      split; [rewrite app_length; cbn [length app]; lia|exact Q].
  Qed.
  Lemma u_extract_csr N gs : Forall (grows_in N) gs -> usesp [] (m_extract_submatrix_csr fresh N gs) own_csr (2 * length gs) (rows_are N).
  Proof.
    intros HG. unfold m_extract_submatrix_csr. ubind (u_noinit_csr N). intros A HA.
    eapply usesp_mono; [apply (u_extract_rows N gs A HA HG)|pull|intros; rewrite app_nil_r; reflexivity|auto].
  Qed.
  Lemma u_diag_csr c N g : grows_in N g -> usesp [] (m_diagonalize_csr fresh c N g) nothing 0 any.
  Proof.
    intros Hg. unfold m_diagonalize_csr. ubind u_array. intros a _. ubind u_noinit_dense. intros D _. ufr. ubind u_noinit_dense. intros V _.
    ubind u_diag_dense. intros ? _. ubind u_free_dense. intros ? _. ubind u_array. intros v _. ubind u_free_dense. intros ? _.
    ubind (u_import_csr N g Hg). intros W _. ufr. ulast u_free_csr. intros; reflexivity.
  Qed.
  Lemma u_inverse_csr N g : grows_in N g -> usesp [] (m_inverse_csr fresh N g) own_csr 0 (rows_are N).
  Proof.
    intros Hg. unfold m_inverse_csr. ubind u_array. intros a _. ubind u_noinit_dense. intros D _. ufr. ubind u_inv_inplace. intros ? _.
    ubind u_array. intros b _. ubind u_free_dense. intros ? _. ubind (u_import_csr N g Hg). intros B HB. ufr.
    apply usesp_ret; [cbn [nothing app]; pcount|exact HB].
  Qed.

  (** ** Any format *)
  Definition kind_is (k : okind) (A : mmat) : Prop := kind_mat A = k.
  Lemma u_free_mat A : usesp (own_mat A) (m_deallocate A) nothing 0 any.
  Proof. destruct A as [A|A|A]; [apply u_free_dense|apply u_free_ell|apply u_free_csr]. Qed.
  Lemma u_wrap {X} (m : mem X) own (f : X -> mmat) n R k : usesp [] m own n R -> (forall x, own_mat (f x) = own x) -> (forall x, R x -> kind_is k (f x)) ->
    usesp [] (x <-- m ;; mret (f x)) own_mat n (kind_is k).
  Proof.
    intros H Ho HR. eapply usesp_bind with (n2 := 0); [exact H|pull| |lia]. intros x Rx. apply usesp_ret; [rewrite Ho, app_nil_r; reflexivity|apply HR, Rx].
  Qed.
  Lemma u_zero k N : usesp [] (m_zero fresh k N) own_mat 0 (kind_is (q_new k N)).
  Proof.
    destruct k; cbn [m_zero q_new].
    - eapply u_wrap; [apply u_noinit_dense|reflexivity|reflexivity].
    - eapply u_wrap; [apply u_noinit_ell|reflexivity|reflexivity].
    - eapply u_wrap; [apply (u_noinit_csr N)|reflexivity|]. intros A HA. unfold kind_is. cbn. rewrite HA. reflexivity.
  Qed.
  Lemma u_import k N g : fine_growth (q_new k N) g -> usesp [] (m_import fresh k N g) own_mat 0 (kind_is (q_new k N)).
  Proof.
    intros Hg. destruct k; cbn [m_import q_new] in *.
    - eapply u_wrap; [apply u_noinit_dense|reflexivity|reflexivity].
    - eapply u_wrap; [apply u_noinit_ell|reflexivity|reflexivity].
    - eapply u_wrap; [apply (u_import_csr N g Hg)|reflexivity|]. intros A HA. unfold kind_is. cbn. rewrite HA. reflexivity.
  Qed.
  Lemma u_copy_new A : usesp [] (m_copy_new fresh A) own_mat 0 (kind_is (kind_mat A)).
  Proof.
    destruct A as [A|A|A]; cbn [m_copy_new kind_mat].
    - eapply u_wrap; [apply u_noinit_dense|reflexivity|reflexivity].
    - eapply u_wrap; [apply u_noinit_ell|reflexivity|reflexivity].
    - eapply u_wrap; [apply (u_copy_csr A)|reflexivity|]. intros B HB. unfold kind_is. cbn. rewrite HB. reflexivity.
  Qed.
  Lemma u_transpose_new g A : fine_growth (kind_mat A) g ->
    usesp [] (m_transpose_new fresh g A) own_mat (match kind_mat A with QEll => 1 | _ => 0 end) (kind_is (kind_mat A)).
  Proof.
    intros Hg. destruct A as [A|A|A]; cbn [m_transpose_new kind_mat] in *.
    - eapply u_wrap; [apply u_noinit_dense|reflexivity|reflexivity].
    - eapply u_wrap; [apply u_transpose_new_ell|reflexivity|reflexivity].
    - eapply u_wrap; [apply (u_transpose_new_csr _ g Hg)|reflexivity|]. intros B HB. unfold kind_is. cbn. rewrite HB. reflexivity.
  Qed.
  Lemma u_inverse g A : fine_growth (kind_mat A) g -> usesp [] (m_inverse fresh g A) own_mat 0 (kind_is (kind_mat A)).
  Proof.
    intros Hg. destruct A as [A|A|A]; cbn [m_inverse kind_mat] in *.
    - eapply u_wrap; [apply u_inverse_dense|reflexivity|reflexivity].
    - eapply u_wrap; [apply u_inverse_ell|reflexivity|reflexivity].
    - eapply u_wrap; [apply (u_inverse_csr _ g Hg)|reflexivity|]. intros B HB. unfold kind_is. cbn. rewrite HB. reflexivity.
  Qed.
  Definition extract_kind (BN : nat) (A : mmat) : okind := match A with MCsr _ => QCsr BN | _ => kind_mat A end.
  Lemma u_extract BN gs A : (match A with MCsr _ => Forall (grows_in BN) gs | _ => True end) ->
    usesp [] (m_extract_submatrix fresh BN gs A) own_mat (extract_loss gs A) (kind_is (extract_kind BN A)).
  Proof.
    intros Hg. destruct A as [A|A|A]; cbn [m_extract_submatrix extract_kind extract_loss kind_mat] in *.
    - eapply u_wrap; [apply u_noinit_dense|reflexivity|reflexivity].
    - eapply u_wrap; [apply u_noinit_ell|reflexivity|reflexivity].
    - eapply u_wrap; [apply (u_extract_csr _ gs Hg)|reflexivity|]. intros B HB. unfold kind_is. cbn. rewrite HB. reflexivity.
  Qed.
  Lemma u_multiply same plain g1 ts g2 C : fine_growth (kind_mat C) g1 -> fine_growth (kind_mat C) g2 ->
    usesp (own_mat C) (m_multiply fresh same plain g1 ts g2 C) own_mat 0 (kind_is (kind_mat C)).
  Proof.
    intros H1 H2. destruct C as [C|C|C]; cbn [m_multiply kind_mat own_mat] in *.
    - apply usesp_ret; reflexivity.
    - ubind u_multiply_ell. intros ? _. apply usesp_ret; [cbn [nothing app own_mat]; reflexivity|reflexivity].
    - ubind (u_multiply_csr same plain _ g1 ts g2 C eq_refl H1 H2). intros C' HC'.
      apply usesp_ret; [cbn [own_mat]; rewrite app_nil_r; reflexivity|unfold kind_is; cbn; rewrite HC'; reflexivity].
  Qed.
  Lemma u_diagonalize c g A : fine_growth (kind_mat A) g -> usesp [] (m_diagonalize fresh c g A) nothing 0 any.
  Proof.
    intros Hg. destruct A as [A|A|A]; cbn [m_diagonalize kind_mat] in *; [apply u_diag_dense|apply u_diag_ell|apply u_diag_csr, Hg].
  Qed.

  (** ** Distributed2d *)
  Lemma own_dist_eq A : own_dist A = [di_self A] ++ own_mat (di_mat A).
  Proof. reflexivity. Qed.
  Lemma u_free_dist A : usesp (own_dist A) (m_deallocate_dist A) nothing 0 any.
  Proof. unfold m_deallocate_dist. rewrite own_dist_eq. ubind u_free_mat. intros ? _. ulast u_mfree. intros; reflexivity. Qed.
  Lemma u_zero_dist k n : usesp [] (m_zero_dist fresh k n) own_dist 0 (fun A => kind_is (q_new k n) (di_mat A)).
  Proof.
    unfold m_zero_dist. um. ubind (u_zero k n). intros L HL. apply usesp_ret; [|exact HL]. rewrite own_dist_eq. cbn [di_self di_mat]. pcount.
  Qed.
  Lemma u_bufs n : usesp [] (a <-- malloc fresh ;; b <-- malloc fresh ;; bufs <-- mmany n (malloc fresh) ;; run meach mfree bufs ;; run mfree b ;; mfree a) nothing 0 any.
  Proof.
    um. um. ubind (u_many (malloc fresh) (fun q => [q]) n u_malloc). intros l _. ubind (u_each mfree (fun q => [q]) l u_mfree). intros ? _.
    ufr. ulast u_mfree. intros; reflexivity.
  Qed.
  Lemma u_bufs_if (b : bool) n : usesp [] (if b then (a <-- malloc fresh ;; b <-- malloc fresh ;; bufs <-- mmany n (malloc fresh) ;; run meach mfree bufs ;; run mfree b ;; mfree a) else mret tt) nothing 0 any.
  Proof. destruct b; [apply u_bufs|uret; reflexivity]. Qed.
  Lemma u_import_dist root nt k n g : fine_growth (q_new k n) g ->
    usesp [] (m_import_dist fresh root nt k n g) own_dist 0 (fun A => kind_is (q_new k n) (di_mat A)).
  Proof.
    intros Hg. unfold m_import_dist. um. um. ubind (u_bufs_if root (nt - 1)). intros ? _. ubind (u_import k n g Hg). intros L HL. ufr.
    apply usesp_ret; [|exact HL]. rewrite own_dist_eq. cbn [di_self di_mat nothing app]. pcount.
  Qed.
  Lemma u_export_dist root nt : usesp [] (m_export_dist fresh root nt) own_opt 1 any.
  Proof.
    unfold m_export_dist. ubind u_some_if. intros a _. ubind u_array. intros s _. ubind (u_bufs_if root (nt - 1)). intros ? _.
    apply (usesp_lose _ [s]); [|exact I]. cbn [nothing app]. pcount.
  Qed.
  Lemma u_get_row_dist_mine : usesp [] (m_get_row_dist fresh true) (fun p => [p]) 1 any.
  Proof.
    unfold m_get_row_dist. um. um. eapply usesp_bind0 with (take := []) (give := own_opt) (R := fun o => exists q, o = Some q); [|pull|].
    - ubind u_array. intros q _. apply usesp_ret; [reflexivity|exists q; reflexivity].
    - intros s [q ->]. do 2 um. do 3 ufr. apply (usesp_lose _ [q]); [|exact I]. cbn [nothing app own_opt]. pcount.
  Qed.
  Lemma u_get_row_dist_other : usesp [] (m_get_row_dist fresh false) (fun p => [p]) 0 any.
  Proof.
    unfold m_get_row_dist. um. um. eapply usesp_bind0 with (take := []) (give := own_opt) (R := fun o => o = None); [|pull|].
    - apply usesp_ret; reflexivity.
    - intros s ->. do 2 um. do 3 ufr. uret. cbn [nothing app own_opt]. reflexivity.
  Qed.
  Lemma u_gershgorin_dist b : usesp [] (m_gershgorin_dist fresh b) (fun p => [p]) 0 any.
  Proof.
    unfold m_gershgorin_dist. um. ubind u_array. intros o _. ufr. eapply usesp_bind0 with (take := []) (give := nothing) (R := any); [|pull|].
    - destruct b; [|uret; reflexivity]. ubind u_array. intros d _. ulast u_mfree. intros; reflexivity.
    - intros ? _. ufr. ulast u_malloc. intros; reflexivity.
  Qed.
  Lemma u_copy_new_dist A : usesp [] (m_copy_new_dist fresh A) own_dist 0 any.
  Proof.
    unfold m_copy_new_dist. um. ubind (u_copy_new (di_mat A)). intros L HL. uret. rewrite own_dist_eq. cbn [di_self di_mat]. pcount.
  Qed.
  Lemma u_transpose_dist A : usesp [] (m_transpose_dist fresh A) nothing 0 any.
  Proof. unfold m_transpose_dist. ubind (u_copy_new_dist A). intros B _. ulast u_free_dist. intros; reflexivity. Qed.
  Lemma u_cannon gs : forall C k, kind_mat C = k -> Forall (fun x => fine_growth k (fst (fst x)) /\ fine_growth k (snd x)) gs ->
    usesp (own_mat C) (m_cannon_steps fresh gs C) own_mat 0 (kind_is k).
  Proof.
    induction gs as [|[[g1 ts] g2] gs IH]; intros C k HC HG; cbn [m_cannon_steps].
    - apply usesp_ret; [reflexivity|exact HC].
    - inversion HG as [|? ? [H1 H2] HG']; subst. cbn [fst snd] in *. ubind (u_multiply false false g1 ts g2 C H1 H2). intros C' HC'.
      eapply usesp_mono; [apply (IH C' _ HC' HG')|pull|intros; rewrite app_nil_r; reflexivity|auto].
  Qed.
  Lemma u_multiply_dist gs A B C : Forall (fun x => fine_growth (kind_mat (di_mat C)) (fst (fst x)) /\ fine_growth (kind_mat (di_mat C)) (snd x)) gs ->
    usesp (own_dist C) (m_multiply_dist fresh gs A B C) own_dist 0 any.
  Proof.
    intros HG. unfold m_multiply_dist. rewrite own_dist_eq. ubind (u_copy_new (di_mat A)). intros A1 _. ubind (u_copy_new (di_mat A)). intros A2 _.
    ubind (u_copy_new (di_mat B)). intros B1 _. ubind (u_copy_new (di_mat B)). intros B2 _.
    ubind (u_cannon gs (di_mat C) _ eq_refl HG). intros L HL. do 4 (ubind u_free_mat; intros ? _). uret.
    rewrite own_dist_eq. cbn [di_self di_mat nothing app]. pcount.
  Qed.
  (** the objects of a matrix with the kind [k] *)
  Lemma own_size A : length (own_mat A) = size_of (kind_mat A).
  Proof.
    destruct A as [A|A|A]; [reflexivity|reflexivity|]. cbn [own_mat kind_mat size_of]. unfold own_csr. rewrite app_length. cbn [length]. f_equal.
    f_equal. induction (cs_rows A) as [|r l IH]; [reflexivity|]. cbn [flat_map length]. rewrite app_length, IH. cbn [own_row length]. lia.
  Qed.
  Lemma u_convert_dist k n g : fine_growth (q_new k n) g -> usesp [] (m_convert_dist fresh k n g) own_dist (size_of (q_new k n)) any.
  Proof.
    intros Hg. unfold m_convert_dist. ubind (u_zero_dist k n). intros B HB. ubind (u_import k n g Hg). intros L HL.
    rewrite <- HB, <- own_size. apply (usesp_lose _ (own_mat (di_mat B))); [|exact I]. rewrite !own_dist_eq. cbn [di_self di_mat]. pcount.
  Qed.
End Alloc.
