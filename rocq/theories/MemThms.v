(** The theorems about memory, and what their hypotheses hold of. *)
From Coq Require Import ZArith Permutation.
From Verif Require Import Base BaseFacts Spec MemModel MemSpec MemFacts MemProg
  EllpackModel EllpackSpec EllpackCheck EllblockModel EllblockSpec EllblockCheck EllblockMemModel EllblockMemSpec EllblockMem.

Section Thms.
  Variable fresh : nat -> list nat -> nat.
  Hypothesis Hf : good_alloc fresh.

  Lemma mem_deallocate A : uses (own_mat A) (m_deallocate A) nothing 0.
  Proof. eapply usesp_uses, (u_free_mat A). Qed.
  Lemma mem_zero k N : uses [] (m_zero fresh k N) own_mat 0.
  Proof. eapply usesp_uses, u_zero, Hf. Qed.
  Lemma mem_import k N g : fine_growth (q_new k N) g -> uses [] (m_import fresh k N g) own_mat 0.
  Proof. intros H. eapply usesp_uses, u_import; [exact Hf|exact H]. Qed.
  Lemma mem_random N g : grows_in N g -> uses [] (m_random_ellpack fresh) own_ellpack 0 /\ uses [] (m_random_csr fresh N g) own_csr 0.
  Proof. intros H. split; eapply usesp_uses; [apply u_random_ell, Hf|apply u_random_csr; [exact Hf|exact H]]. Qed.
  Lemma mem_copy_new A : uses [] (m_copy_new fresh A) own_mat 0.
  Proof. eapply usesp_uses, u_copy_new, Hf. Qed.
  Lemma mem_multiply same plain g1 ts g2 C : fine_growth (kind_mat C) g1 -> fine_growth (kind_mat C) g2 ->
    uses (own_mat C) (m_multiply fresh same plain g1 ts g2 C) own_mat 0.
  Proof. intros H1 H2. eapply usesp_uses, u_multiply; [exact Hf|exact H1|exact H2]. Qed.
  Lemma mem_inverse g A : fine_growth (kind_mat A) g -> uses [] (m_inverse fresh g A) own_mat 0.
  Proof. intros H. eapply usesp_uses, u_inverse; [exact Hf|exact H]. Qed.
  Lemma mem_diagonalize c g A : fine_growth (kind_mat A) g -> uses [] (m_diagonalize fresh c g A) nothing 0.
  Proof. intros H. eapply usesp_uses, u_diagonalize; [exact Hf|exact H]. Qed.
  Lemma mem_reorder : uses [] (m_reorder_dense fresh) nothing 0 /\ uses [] (m_reorder_ellpack fresh) nothing 0.
  Proof. split; eapply usesp_uses; [apply u_reorder_dense, Hf|apply u_reorder_ell, Hf]. Qed.
  Lemma mem_csr_rows N ts g gs A : length (cs_rows A) = N -> grows_in N g -> Forall (grows_in N) gs ->
    uses (own_csr A) (m_set_row_csr fresh g A) own_csr 0 /\ uses (own_csr A) (m_add_csr fresh ts g A) own_csr 0 /\
    uses [] (m_sums_csr fresh ts) nothing 0 /\ uses [] (m_convert_csr fresh N gs) own_csr 0.
  Proof.
    intros HN Hg HG. split; [|split; [|split]]; eapply usesp_uses.
    - apply (u_set_row fresh Hf N); auto.
    - apply (u_add_csr fresh Hf N); auto.
    - apply u_sums_csr, Hf.
    - apply (u_convert_csr fresh Hf N); auto.
  Qed.
  Lemma mem_transpose_new g A : fine_growth (kind_mat A) g -> kind_mat A <> QEll -> uses [] (m_transpose_new fresh g A) own_mat 0.
  Proof. intros Hg HA. pose proof (usesp_uses _ _ _ _ _ (u_transpose_new fresh Hf g A Hg)) as H. destruct (kind_mat A); auto. congruence. Qed.
  Lemma mem_transpose_new_refuted : uses [] (m_transpose_new_ellpack fresh) own_ellpack 1.
  Proof. eapply usesp_uses, u_transpose_new_ell, Hf. Qed.
  Lemma mem_adjacency_refuted : uses [] (m_adjacency_group_ellpack fresh) nothing 1.
  Proof. eapply usesp_uses, u_adjacency, Hf. Qed.
  Lemma mem_extract_refuted BN gs A : (match A with MCsr _ => Forall (grows_in BN) gs | _ => True end) ->
    uses [] (m_extract_submatrix fresh BN gs A) own_mat (extract_loss gs A).
  Proof. intros H. eapply usesp_uses, u_extract; [exact Hf|exact H]. Qed.

  (** distributed matrices *)
  Lemma mem_dist_deallocate A : uses (own_dist A) (m_deallocate_dist A) nothing 0.
  Proof. eapply usesp_uses, (u_free_dist A). Qed.
  Lemma mem_dist_new root nt k n g A : fine_growth (q_new k n) g ->
    uses [] (m_zero_dist fresh k n) own_dist 0 /\ uses [] (m_import_dist fresh root nt k n g) own_dist 0 /\ uses [] (m_copy_new_dist fresh A) own_dist 0.
  Proof. intros H. split; [|split]; eapply usesp_uses; [apply u_zero_dist, Hf|apply u_import_dist; [exact Hf|exact H]|apply u_copy_new_dist, Hf]. Qed.
  Lemma mem_dist_ops gs b A B C : Forall (fun x => fine_growth (kind_mat (di_mat C)) (fst (fst x)) /\ fine_growth (kind_mat (di_mat C)) (snd x)) gs ->
    uses (own_dist C) (m_multiply_dist fresh gs A B C) own_dist 0 /\ uses [] (m_transpose_dist fresh A) nothing 0 /\ uses [] (m_gershgorin_dist fresh b) (fun p => [p]) 0.
  Proof. intros H. split; [|split]; eapply usesp_uses; [apply u_multiply_dist; [exact Hf|exact H]|apply u_transpose_dist, Hf|apply u_gershgorin_dist, Hf]. Qed.
  Lemma mem_dist_export_refuted root nt : uses [] (m_export_dist fresh root nt) own_opt 1.
  Proof. eapply usesp_uses, u_export_dist, Hf. Qed.
  Lemma mem_dist_get_row_refuted : uses [] (m_get_row_dist fresh true) (fun p => [p]) 1 /\ uses [] (m_get_row_dist fresh false) (fun p => [p]) 0.
  Proof. split; eapply usesp_uses; [apply u_get_row_dist_mine, Hf|apply u_get_row_dist_other, Hf]. Qed.
  Lemma mem_dist_convert_refuted k n g : fine_growth (q_new k n) g -> uses [] (m_convert_dist fresh k n g) own_dist (size_of (q_new k n)).
  Proof. intros H. eapply usesp_uses, u_convert_dist; [exact Hf|exact H]. Qed.
End Thms.

(** freeing twice, and using a variable after it was freed *)
Lemma mem_double_free A h rest : NoDup (hlive h) -> Permutation (hlive h) (own_mat A ++ rest) ->
  exists h', m_deallocate A h = Ok (tt, h') /\ m_deallocate A h' = UB.
Proof.
  intros N P. destruct (mem_deallocate A h rest N P) as ([] & h' & out & E & N' & P' & L). exists h'. split; [exact E|].
  destruct out; [|discriminate]. cbn [nothing app] in P'.
  assert (Hno : forall p, In p (own_mat A) -> ~ In p (hlive h')).
  { intros p Hp Hin. apply (Permutation_in _ P') in Hin. pose proof (Permutation_NoDup P N) as ND. clear -ND Hp Hin. induction (own_mat A) as [|x l IH]; [destruct Hp|]. inversion ND as [|? ? Hx ND']; subst. destruct Hp as [->|Hp]; [apply Hx, in_or_app; auto|auto]. }
  assert (Hfree : forall p, In p (own_mat A) -> mfree p h' = UB).
  { intros p Hp. unfold mfree. destruct (existsb (Nat.eqb p) (hlive h')) eqn:Eb; auto. apply existsb_exists in Eb. destruct Eb as (q & Hq & Eq). apply Nat.eqb_eq in Eq. subst q. destruct (Hno p Hp Hq). }
  destruct A as [A|A|A]; cbn [m_deallocate own_mat] in *.
  - unfold m_deallocate_dense, m_deallocate_domain, mbind. cbn [bind]. rewrite Hfree by (cbn; tauto). reflexivity.
  - unfold m_deallocate_ellpack, m_deallocate_domain, mbind. cbn [bind]. rewrite Hfree by (cbn; tauto). reflexivity.
  - unfold m_deallocate_csr, mbind. destruct (cs_rows A) as [|r rows] eqn:Er; cbn [meach].
    + cbn [mret bind]. rewrite Hfree; [reflexivity|]. unfold own_csr. cbn. tauto.
    + unfold m_deallocate_row, mbind. cbn [bind]. rewrite Hfree; [reflexivity|]. unfold own_csr. rewrite Er. cbn. tauto.
Qed.

(** ** Concrete instances *)

(** one more than the largest live address *)
Definition next_addr (_ : nat) (l : list nat) : nat := S (list_max l).
Lemma next_addr_good : good_alloc next_addr.
Proof.
  intros t l H. unfold next_addr in H. assert (G : forall x, In x l -> x <= list_max l). { intros x Hx. pose proof (proj1 (list_max_le l (list_max l)) (le_n _)) as HF. rewrite Forall_forall in HF. auto. }
  specialize (G _ H). lia.
Qed.
(** a csr program: rows that grow and move, a product, an inverse, a copy *)
Definition exProg : list mop :=
  [PImport KCsr 3 [(0, (true, false)); (2, (true, true))]; PCopyNew 0; PZero KCsr 3; PMultiply 2 false false [(1, (false, true))] [[true]; []; [false; true]] [(0, (true, true))];
   PInverse 2 [(1, (true, true))]; PExport 3; PSetRow 1 [(1, (true, false))]; PAdd 1 [[]; [true]] [(2, (false, true))]; PDiagonalize 1 true [(0, (true, true))];
   PDeallocate 0; PDeallocate 1; PDeallocate 2; PDeallocate 3; PFree 4].
(** an ellpack program with a transpose and a csr submatrix *)
Definition exLeak : list mop :=
  [PImport KEll 4 []; PTransposeNew 0 []; PImport KCsr 4 [(3, (true, true))]; PExtract 2 2 [[(0, (true, true))]; []]; PDeallocate 0; PDeallocate 1; PDeallocate 2; PDeallocate 3].
Lemma exProg_ok : q_run exProg [] = Some (repeat None 5, 0) /\ forallb harmless exProg = true /\
  exists vs t, m_run next_addr exProg [] (mkHeap 0 []) = Ok (vs, mkHeap t []) /\ length vs = 5.
Proof. split; [reflexivity|]. split; [reflexivity|]. vm_compute. eexists _, _. split; reflexivity. Qed.
Lemma exLeak_ok : q_run exLeak [] = Some (repeat None 4, 5) /\
  exists vs h, m_run next_addr exLeak [] (mkHeap 0 []) = Ok (vs, h) /\ length (hlive h) = 5.
Proof. split; [reflexivity|]. vm_compute. eexists _, _. split; reflexivity. Qed.

(** ** Block ellpack *)

Definition ebS : list (nat * nat) := [(0, 0); (1, 1); (0, 2)].
(** A - A with a threshold: no block is left in use, all of A's blocks are live *)
Definition exE0 : eb Zscalar := Eval vm_compute in match eb_add (F:=Zscalar) (gtZ 0) 1%Z (-1)%Z exEA exEA (fun _ => 7%Z) ebS with Ok A => A | _ => exEA end.
Lemma ellblock_add_refuted : exists (A A' : eb Zscalar) h, ebwf A /\ clean A /\ orphans A = 0%Z /\
  eb_add (F:=Zscalar) (gtZ 0) 1%Z (-1)%Z A A (fun _ => 7%Z) [(0, 0); (1, 1); (0, 2)] = Ok A' /\ ebwf A' /\ eb_deallocate A' = Ok h /\ nlive h = 4.
Proof.
  exists exEA, exE0, (bheap exE0). split; [apply exEA_wf|]. split; [apply exEA_wf|]. split; [reflexivity|]. split; [reflexivity|]. split; [ebwf_now|]. split; reflexivity.
Qed.
(** a matrix with fewer blocks copied over one with more *)
Definition exEK : eb Zscalar := Eval vm_compute in match eb_copy (F:=Zscalar) exEB exEA (fun _ => 7%Z) ebS with Ok A => A | _ => exEA end.
Lemma ellblock_copy_refuted : exists (A B B' : eb Zscalar) h, ebwf A /\ ebwf B /\ orphans A = 0%Z /\ orphans B = 0%Z /\
  eb_copy (F:=Zscalar) A B (fun _ => 7%Z) [(0, 0); (1, 1); (0, 2)] = Ok B' /\ ebwf B' /\ eb_deallocate B' = Ok h /\ nlive h = 1.
Proof.
  exists exEB, exEA, exEK, (match eb_deallocate exEK with Ok h => h | _ => [] end). split; [apply exEB_wf|]. split; [apply exEA_wf|]. split; [reflexivity|]. split; [reflexivity|]. split; [reflexivity|]. split; [ebwf_now|]. split; reflexivity.
Qed.

Section Eb.
  Context {F : scalar}.
  Implicit Types A B : eb F.
  (** what is left of an ellblock matrix after it was deallocated *)
  Lemma ellblock_deallocate A : ebwf A -> exists h, eb_deallocate A = Ok h /\ Z.of_nat (nlive h) = orphans A.
  Proof. apply deallocate_ok. Qed.
  Lemma ellblock_new_orphans (c c' : cache) B : 
    ((exists N M, eb_zero c N M = Ok (c', B)) \/ (exists N M g, eb_identity c N M g = Ok (c', B)) \/
     (exists o N D keep M g, eb_import c o N D keep M g = Ok (c', B)) \/ (exists N get M g, eb_convert c N get M g = Ok (c', B)) \/
     (exists keep A g, eb_threshold_new c keep A g = Ok (c', B)) \/ (exists A g, eb_transpose_new c A g = Ok (c', B)) \/
     (exists A g nth_ sched, ebwf A /\ full_sched (bNB A) nth_ sched /\ eb_copy_new c A g sched = Ok (c', B))) -> orphans B = 0%Z.
  Proof.
    intros [(N & M & E)|[(N & M & g & E)|[(o & N & D & keep & M & g & E)|[(N & get & M & g & E)|[(keep & A & g & E)|[(A & g & E)|(A & g & nth_ & sched & HW & HF & E)]]]]]].
    - eapply zero_orphans; eauto.
    - eapply identity_orphans; eauto.
    - eapply import_orphans; eauto.
    - eapply convert_orphans; eauto.
    - eapply threshold_new_orphans; eauto.
    - eapply transpose_new_orphans; eauto.
    - eapply copy_new_orphans; eauto.
  Qed.
  Lemma ellblock_keep_orphans A A' :
    ((exists i j v g, eb_set_element A i j v g = Ok A') \/ (exists keep i row g, eb_set_row keep A i row g = Ok A') \/
     (exists keep d g, eb_set_diagonal keep A d g = Ok A') \/ (exists ib jb x, eb_set_block A ib jb x = Ok A') \/
     (exists a, eb_scale_inplace a A = Ok A') \/ (exists g, eb_transpose A g = Ok A') \/
     (exists keep, ebwf A /\ eb_threshold keep A = Ok A') \/ (ebwf A /\ eb_clear A = Ok A')) -> orphans A' = orphans A.
  Proof.
    intros [(i & j & v & g & E)|[(keep & i & row & g & E)|[(keep & d & g & E)|[(ib & jb & x & E)|[(a & E)|[(g & E)|[(keep & HW & E)|(HW & E)]]]]]]].
    - eapply set_element_orphans; eauto.
    - eapply set_row_orphans; eauto.
    - eapply set_diagonal_orphans; eauto.
    - apply orphans_still. eapply set_block_orphans; eauto.
    - eapply scale_orphans; eauto.
    - eapply transpose_orphans; eauto.
    - eapply threshold_orphans; eauto.
    - destruct (clear_orphans A HW) as (A2 & E2 & H & _). congruence.
  Qed.
End Eb.
