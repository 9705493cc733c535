(** Programs of calls: the live objects are those of the variables and those the
    specification counts as lost. *)
From Coq Require Import Permutation.
From Verif Require Import Base BaseFacts MemModel MemSpec MemFacts.

Definition ownv (v : option mobj) : list nat := match v with Some o => own_obj o | None => [] end.

Lemma own_vars_cons v vs : own_vars (v :: vs) = ownv v ++ own_vars vs.
Proof. reflexivity. Qed.
Lemma own_vars_new vs o : own_vars (v_new vs o) = own_vars vs ++ own_obj o.
Proof. unfold own_vars, v_new. rewrite flat_map_app. cbn [flat_map]. rewrite app_nil_r. reflexivity. Qed.
Lemma own_vars_set : forall vs i v v', nth_error vs i = Some v -> Permutation (own_vars vs) (ownv v ++ own_vars (set_nth vs i None)) /\
  Permutation (own_vars (set_nth vs i v')) (ownv v' ++ own_vars (set_nth vs i None)).
Proof.
  intros vs i v v' H. destruct (split_nth _ _ _ H) as (a & b & -> & <-). rewrite !set_nth_mid. unfold own_vars. rewrite !flat_map_app. cbn [flat_map].
  fold (ownv v) (ownv v'). cbn [app]. split; pcount.
Qed.
Lemma kinds_new vs o : kinds_of (v_new vs o) = kinds_of vs ++ [Some (kind_obj o)].
Proof. unfold kinds_of, v_new. rewrite map_app. reflexivity. Qed.
Lemma map_set_nth {X Y} (f : X -> Y) : forall l i x, map f (set_nth l i x) = set_nth (map f l) i (f x).
Proof. induction l as [|y l IH]; intros [|i] x; cbn; try reflexivity. rewrite IH. reflexivity. Qed.
Lemma kinds_set vs i v : kinds_of (set_nth vs i v) = set_nth (kinds_of vs) i (option_map kind_obj v).
Proof. apply map_set_nth. Qed.
Lemma set_nth_same {X} : forall (l : list X) i x, nth_error l i = Some x -> set_nth l i x = l.
Proof. induction l as [|y l IH]; intros [|i] x H; cbn in *; try discriminate; [congruence|]. rewrite IH by exact H. reflexivity. Qed.
Lemma kinds_nth vs i : nth_error (kinds_of vs) i = option_map (option_map kind_obj) (nth_error vs i).
Proof. unfold kinds_of. apply nth_error_map. Qed.
Lemma kinds_keep vs i A B : nth_error vs i = Some (Some (OMat A)) -> kind_mat B = kind_mat A -> kinds_of (set_nth vs i (Some (OMat B))) = kinds_of vs.
Proof. intros H E. rewrite kinds_set. apply set_nth_same. rewrite kinds_nth, H. cbn. rewrite E. reflexivity. Qed.

Lemma q_mat_inv vs i k : q_mat (kinds_of vs) i = Some k -> exists A, nth_error vs i = Some (Some (OMat A)) /\ v_mat vs i = Ok A /\ kind_mat A = k.
Proof.
  unfold q_mat. rewrite kinds_nth. unfold v_mat. destruct (nth_error vs i) as [[[A|p]|]|]; cbn; try discriminate. intros H. exists A.
  split; [reflexivity|]. split; [reflexivity|]. destruct (kind_mat A) eqn:E; congruence || (destruct A; discriminate).
Qed.
Lemma grows_inb_ok N g : grows_inb N g = true -> grows_in N g.
Proof. unfold grows_inb, grows_in. rewrite forallb_forall, Forall_forall. intros H e He. apply Nat.ltb_lt, H, He. Qed.
Lemma q_grow_ok k g : q_grow k g = true -> fine_growth k g.
Proof. destruct k; cbn; auto. apply grows_inb_ok. Qed.

Section Progs.
  Variable fresh : nat -> list nat -> nat.
  Hypothesis Hf : good_alloc fresh.

  Definition state_ok (vs : mvars) (h : heap) (rest : list nat) : Prop := NoDup (hlive h) /\ Permutation (hlive h) (own_vars vs ++ rest).
  Definition step_to (r : res (mvars * heap)) (rest : list nat) (ks : okinds) (n : nat) : Prop :=
    exists vs' h' out, r = Ok (vs', h') /\ state_ok vs' h' (out ++ rest) /\ length out = n /\ kinds_of vs' = ks.

  Lemma do_new (m : mem mmat) n k vs h rest : usesp [] m own_mat n (kind_is k) -> state_ok vs h rest ->
    step_to ('(A, h) <- m h ;; Ok (v_new vs (OMat A), h)) rest (kinds_of vs ++ [Some k]) n.
  Proof.
    intros Hm [N P]. destruct (Hm h (own_vars vs ++ rest) N P) as (A & h' & out & E & N' & P' & L & Q). exists (v_new vs (OMat A)), h', out.
    rewrite E. cbn [bind]. split; [reflexivity|]. split; [|split; [exact L|rewrite kinds_new; cbn [kind_obj]; rewrite Q; reflexivity]].
    split; [exact N'|]. rewrite P', own_vars_new. cbn [own_obj]. pcount.
  Qed.
  Lemma do_array (m : mem nat) vs h rest : usesp [] m (fun p => [p]) 0 any -> state_ok vs h rest ->
    step_to ('(p, h) <- m h ;; Ok (v_new vs (OArr p), h)) rest (kinds_of vs ++ [Some QArr]) 0.
  Proof.
    intros Hm [N P]. destruct (Hm h (own_vars vs ++ rest) N P) as (p & h' & out & E & N' & P' & L & Q). exists (v_new vs (OArr p)), h', out.
    rewrite E. cbn [bind]. split; [reflexivity|]. split; [|split; [exact L|rewrite kinds_new; reflexivity]].
    split; [exact N'|]. rewrite P', own_vars_new. cbn [own_obj]. pcount.
  Qed.
  Lemma do_temp {X} (m : mem X) vs h rest : usesp [] m nothing 0 any -> state_ok vs h rest -> step_to ('(_, h) <- m h ;; Ok (vs, h)) rest (kinds_of vs) 0.
  Proof.
    intros Hm [N P]. destruct (Hm h (own_vars vs ++ rest) N P) as (x & h' & out & E & N' & P' & L & Q). exists vs, h', out.
    rewrite E. cbn [bind]. split; [reflexivity|]. split; [|split; [exact L|reflexivity]]. split; [exact N'|]. rewrite P'. cbn [nothing app]. pcount.
  Qed.
  Lemma do_free (m : mem unit) i v vs h rest : nth_error vs i = Some v -> usesp (ownv v) m nothing 0 any -> state_ok vs h rest ->
    step_to ('(_, h) <- m h ;; Ok (set_nth vs i None, h)) rest (set_nth (kinds_of vs) i None) 0.
  Proof.
    intros Hv Hm [N P]. destruct (own_vars_set vs i v None Hv) as [P1 _].
    destruct (Hm h (own_vars (set_nth vs i None) ++ rest) N) as (x & h' & out & E & N' & P' & L & Q); [rewrite P, P1, <- app_assoc; reflexivity|].
    exists (set_nth vs i None), h', out. rewrite E. cbn [bind]. split; [reflexivity|]. split; [|split; [exact L|apply kinds_set]].
    split; [exact N'|]. rewrite P'. cbn [nothing app]. pcount.
  Qed.
  Lemma do_update {X} (m : mem X) (f : X -> mmat) i A vs h rest : nth_error vs i = Some (Some (OMat A)) ->
    usesp (own_mat A) m (fun x => own_mat (f x)) 0 (fun x => kind_mat (f x) = kind_mat A) -> state_ok vs h rest ->
    step_to ('(x, h) <- m h ;; Ok (set_nth vs i (Some (OMat (f x))), h)) rest (kinds_of vs) 0.
  Proof.
    intros Hv Hm [N P]. destruct (own_vars_set vs i _ None Hv) as [P1 _].
    destruct (Hm h (own_vars (set_nth vs i None) ++ rest) N) as (x & h' & out & E & N' & P' & L & Q); [rewrite P, P1, <- app_assoc; reflexivity|].
    destruct (own_vars_set vs i _ (Some (OMat (f x))) Hv) as [_ P2].
    exists (set_nth vs i (Some (OMat (f x)))), h', out. rewrite E. cbn [bind]. split; [reflexivity|]. split; [|split; [exact L|apply (kinds_keep vs i A); auto]].
    split; [exact N'|]. rewrite P', P2. cbn [ownv own_obj]. pcount.
  Qed.
  Lemma do_nothing vs h rest : state_ok vs h rest -> step_to (Ok (vs, h)) rest (kinds_of vs) 0.
  Proof. intros H. exists vs, h, []. auto. Qed.
  Lemma do_update_csr (m : mem mcsr) i A vs h rest : nth_error vs i = Some (Some (OMat (MCsr A))) ->
    usesp (own_csr A) m own_csr 0 (rows_are (length (cs_rows A))) -> state_ok vs h rest ->
    step_to ('(x, h) <- m h ;; Ok (set_nth vs i (Some (OMat (MCsr x))), h)) rest (kinds_of vs) 0.
  Proof.
    intros Hv Hm. apply (do_update m MCsr i (MCsr A)); [exact Hv|]. cbn [own_mat]. intros h0 r0 N0 P0.
    destruct (Hm h0 r0 N0 P0) as (x & h' & out & E & N' & P' & L & Q). exists x, h', out. repeat split; auto. cbn. rewrite Q. reflexivity.
  Qed.

  Lemma step_ok o vs h rest ks n : state_ok vs h rest -> q_step o (kinds_of vs) = Some (ks, n) -> step_to (m_step fresh o vs h) rest ks n.
  Proof.
    intros HS HQ. destruct o; cbn [q_step m_step] in *.
    - injection HQ as <- <-. apply do_new; [apply u_zero, Hf|exact HS].
    - destruct (q_grow (q_new k N) g) eqn:Eg; [|discriminate]. injection HQ as <- <-. apply do_new; [apply u_import; [exact Hf|apply q_grow_ok, Eg]|exact HS].
    - destruct (q_mat (kinds_of vs) i) as [k|] eqn:Ek; [|discriminate]. injection HQ as <- <-. destruct (q_mat_inv _ _ _ Ek) as (A & _ & -> & _).
      cbn [bind]. apply do_array; [apply u_array, Hf|exact HS].
    - destruct (q_mat (kinds_of vs) i) as [k|] eqn:Ek; [|discriminate]. injection HQ as <- <-. destruct (q_mat_inv _ _ _ Ek) as (A & _ & -> & <-).
      cbn [bind]. apply do_new; [apply u_copy_new, Hf|exact HS].
    - destruct (q_mat (kinds_of vs) i) as [k|] eqn:Ek; [|discriminate]. destruct (q_grow k g) eqn:Eg; [|discriminate]. injection HQ as <- <-.
      destruct (q_mat_inv _ _ _ Ek) as (A & _ & -> & <-). cbn [bind]. apply do_new; [apply u_transpose_new; [exact Hf|apply q_grow_ok, Eg]|exact HS].
    - destruct (q_mat (kinds_of vs) i) as [k|] eqn:Ek; [|discriminate]. destruct (q_grow k g) eqn:Eg; [|discriminate]. injection HQ as <- <-.
      destruct (q_mat_inv _ _ _ Ek) as (A & _ & -> & <-). cbn [bind]. apply do_new; [apply u_inverse; [exact Hf|apply q_grow_ok, Eg]|exact HS].
    - destruct (q_mat (kinds_of vs) i) as [k|] eqn:Ek; [|discriminate]. destruct (q_mat_inv _ _ _ Ek) as (A & _ & -> & <-). cbn [bind].
      assert ((match A with MCsr _ => Forall (grows_in BN) gs | _ => True end) /\ ks = kinds_of vs ++ [Some (extract_kind BN A)] /\ n = extract_loss gs A) as (Hg & -> & ->).
      { destruct A as [A|A|A]; cbn [kind_mat extract_kind extract_loss] in *; try (injection HQ as <- <-; auto).
        destruct (forallb (grows_inb BN) gs) eqn:Eg; [|discriminate]. injection HQ as <- <-. split; [|auto].
        rewrite forallb_forall in Eg. apply Forall_forall. intros g Hg. apply grows_inb_ok, Eg, Hg. }
      apply do_new; [apply u_extract; [exact Hf|exact Hg]|exact HS].
    - destruct (q_mat (kinds_of vs) c) as [k|] eqn:Ek; [|discriminate]. destruct (q_grow k g1) eqn:E1, (q_grow k g2) eqn:E2; try discriminate.
      injection HQ as <- <-. destruct (q_mat_inv _ _ _ Ek) as (A & Hv & -> & <-). cbn [bind].
      apply (do_update (m_multiply fresh same plain g1 ts g2 A) (fun x => x) c A); [exact Hv| |exact HS].
      apply u_multiply; [exact Hf|apply q_grow_ok, E1|apply q_grow_ok, E2].
    - destruct (q_mat (kinds_of vs) i) as [k|] eqn:Ek; [|discriminate]. destruct (q_grow k g) eqn:Eg; [|discriminate]. injection HQ as <- <-.
      destruct (q_mat_inv _ _ _ Ek) as (A & Hv & -> & <-). cbn [bind]. destruct A as [A|A|A]; [apply do_nothing, HS|apply do_nothing, HS|].
      apply (do_update_csr _ i A); [exact Hv| |exact HS]. apply u_add_csr; [exact Hf|reflexivity|apply q_grow_ok in Eg; exact Eg].
    - destruct (q_mat (kinds_of vs) i) as [k|] eqn:Ek; [|discriminate]. destruct (q_grow k g) eqn:Eg; [|discriminate]. injection HQ as <- <-.
      destruct (q_mat_inv _ _ _ Ek) as (A & Hv & -> & <-). cbn [bind]. destruct A as [A|A|A]; [apply do_nothing, HS|apply do_nothing, HS|].
      apply (do_update_csr _ i A); [exact Hv| |exact HS]. apply u_set_row; [exact Hf|reflexivity|apply q_grow_ok in Eg; exact Eg].
    - destruct (q_mat (kinds_of vs) i) as [k|] eqn:Ek; [|discriminate]. destruct (q_grow k g) eqn:Eg; [|discriminate]. injection HQ as <- <-.
      destruct (q_mat_inv _ _ _ Ek) as (A & Hv & -> & <-). cbn [bind]. apply do_temp; [apply u_diagonalize; [exact Hf|apply q_grow_ok, Eg]|exact HS].
    - destruct (q_mat (kinds_of vs) i) as [k|] eqn:Ek; [|discriminate]. destruct (q_mat_inv _ _ _ Ek) as (A & Hv & -> & <-). cbn [bind].
      destruct A as [A|A|A]; cbn [kind_mat] in HQ; [| |discriminate]; injection HQ as <- <-.
      + apply do_temp; [apply u_reorder_dense, Hf|exact HS].
      + apply do_temp; [apply u_reorder_ell, Hf|exact HS].
    - destruct (q_mat (kinds_of vs) i) as [k|] eqn:Ek; [|discriminate]. injection HQ as <- <-. destruct (q_mat_inv _ _ _ Ek) as (A & Hv & -> & <-).
      cbn [bind]. apply (do_free _ i _ vs h rest Hv); [apply u_free_mat|exact HS].
    - destruct (nth_error (kinds_of vs) i) as [[[| | |]|]|] eqn:Ek; try discriminate. injection HQ as <- <-.
      rewrite kinds_nth in Ek. unfold v_arr. destruct (nth_error vs i) as [[[A|p]|]|] eqn:Ev; cbn in Ek; try discriminate.
      { destruct A; discriminate. }
      cbn [bind]. apply (do_free _ i _ vs h rest Ev); [apply u_mfree|exact HS].
  Qed.

  Theorem run_ok p : forall vs h rest ks n, NoDup (hlive h) -> Permutation (hlive h) (own_vars vs ++ rest) -> q_run p (kinds_of vs) = Some (ks, n) ->
    exists vs' h' out, m_run fresh p vs h = Ok (vs', h') /\ NoDup (hlive h') /\ Permutation (hlive h') (own_vars vs' ++ out ++ rest) /\
      length out = n /\ kinds_of vs' = ks.
  Proof.
    induction p as [|o p IH]; intros vs h rest ks n N P HQ; cbn [q_run m_run] in *.
    - injection HQ as <- <-. exists vs, h, []. auto.
    - destruct (q_step o (kinds_of vs)) as [[ks1 n1]|] eqn:E1; [|discriminate]. destruct (q_run p ks1) as [[ks2 n2]|] eqn:E2; [|discriminate].
      injection HQ as <- <-. destruct (step_ok o vs h rest ks1 n1 (conj N P) E1) as (vs1 & h1 & o1 & R1 & [N1 P1] & L1 & K1). rewrite R1. cbn [bind].
      subst ks1. destruct (IH vs1 h1 (o1 ++ rest) ks2 n2 N1 P1 E2) as (vs2 & h2 & o2 & R2 & N2 & P2 & L2 & K2).
      exists vs2, h2, (o2 ++ o1). split; [exact R2|]. split; [exact N2|]. split; [rewrite P2, <- !app_assoc; reflexivity|].
      split; [rewrite app_length; lia|exact K2].
  Qed.

  Lemma harmless_loss p : forall ks ks' n, forallb harmless p = true -> q_run p ks = Some (ks', n) -> n = 0.
  Proof.
    induction p as [|o p IH]; intros ks ks' n Hh HQ; cbn [q_run forallb] in *; [congruence|]. apply andb_true_iff in Hh. destruct Hh as [Ho Hp].
    destruct (q_step o ks) as [[ks1 n1]|] eqn:E1; [|discriminate]. destruct (q_run p ks1) as [[ks2 n2]|] eqn:E2; [|discriminate].
    injection HQ as <- <-. rewrite (IH ks1 ks2 n2 Hp E2).
    assert (n1 = 0) as ->; [|reflexivity]. destruct o; cbn [q_step harmless] in *; try discriminate; unfold when in E1;
      repeat match type of E1 with context [match ?x with _ => _ end] => destruct x end; congruence.
  Qed.
  Lemma own_vars_none vs : kinds_of vs = repeat None (length vs) -> own_vars vs = [].
  Proof.
    induction vs as [|[o|] vs IH]; intros H; [reflexivity| |]; cbn in H; [discriminate|]. injection H as H. apply IH, H.
  Qed.

  (** started with nothing and ended with every variable freed, a program leaves
      exactly the lost objects; none if it makes harmless calls only *)
  Theorem run_closed p k n : q_run p [] = Some (repeat None k, n) ->
    exists vs h, m_run fresh p [] (mkHeap 0 []) = Ok (vs, h) /\ length (hlive h) = n /\ (forallb harmless p = true -> hlive h = []).
  Proof.
    intros HQ. destruct (run_ok p [] (mkHeap 0 []) [] _ n (NoDup_nil _) (Permutation_refl _) HQ) as (vs & h & out & R & N & P & L & K).
    exists vs, h. split; [exact R|]. rewrite own_vars_none in P.
    2:{ rewrite K. f_equal. rewrite <- (map_length (option_map kind_obj) vs). fold (kinds_of vs). rewrite K, repeat_length. reflexivity. }
    cbn [app] in P. rewrite app_nil_r in P. split; [rewrite (Permutation_length P); exact L|].
    intros Hh. rewrite (harmless_loss _ _ _ _ Hh HQ) in L. destruct out; [|discriminate]. apply Permutation_nil, Permutation_sym, P.
  Qed.
End Progs.
