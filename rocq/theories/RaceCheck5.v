(** A memory that meets the hypotheses of the csr Gershgorin loop. *)
From Coq Require Import Reals.
From Verif Require Import Base BaseFacts Spec CsrModel CsrSpec ThreadModel RaceModel RaceModel3 RaceSpec3 RaceCsr.

(** the rows of [A] as matrix object 1 (and 0 and 2), and dense arrays of [n] cells *)
Definition mem_csr {F : scalar} (A : csr F) (n : nat) : mem loc (val F) := fun l =>
  match fst l with
  | aIdx c => match nth_error (cdata A) (c / 3) with
              | Some r => option_map (fun x => VN (match x with Some (k, _) => k | None => 0 end)) (nth_error (rcells r) (snd l))
              | None => None
              end
  | aVal c => match nth_error (cdata A) (c / 3) with
              | Some r => option_map (fun x => VK (match x with Some (_, v) => v | None => k0 end)) (nth_error (rcells r) (snd l))
              | None => None
              end
  | aNnz c => match nth_error (cdata A) (c / 3) with Some r => Some (VN (rnnz r)) | None => None end
  | aDense _ => if snd l <? n then Some (VK k0) else None
  | _ => None
  end.

Lemma mem_csr_holds {F : scalar} (A : csr F) n : holds_csr (mem_csr A n) 1 A.
Proof.
  intros i r Er. split.
  - unfold mem_csr. cbn [fst]. rewrite ro_div by lia. rewrite Er. reflexivity.
  - intros pos. unfold mem_csr. cbn [fst snd]. rewrite ro_div by lia. rewrite Er.
    destruct (nth_error (rcells r) pos) as [[[k v]|]|]; simpl; auto. split; discriminate.
Qed.

Lemma mem_csr_dense {F : scalar} (A : csr F) n i : i < n ->
  mem_csr A n (aDense 0, i) <> None /\ mem_csr A n (aDense 4, i) <> None.
Proof. intros H. unfold mem_csr. cbn [fst snd]. destruct (Nat.ltb_spec i n); [split; discriminate|lia]. Qed.
