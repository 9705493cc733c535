(** C23: the row domain of a matrix is a partition of its rows among the
    ranks.  See DomainSpec.v for the specification. *)
From Verif Require Import Base Spec DomainModel DomainSpec DomainFacts.

Theorem c23_default_domain_partition : forall P N M d1 d2 d3 d4 d5,
  0 < P -> length d1 = P -> length d2 = P -> length d3 = P -> length d4 = P -> length d5 = P ->
  exists d, default_domain P N M Distributed d1 d2 d3 d4 d5 = Ok d /\
    dom_shape P d /\ dom_consistent P M d /\ dom_partition P N d /\
    (forall i, i < P -> nth i (localDispl d) 0 = nth i (localRowMin d) 0 * M) /\
    (forall i j, i < P -> j < P -> nth i (localRowExtent d) 0 <= nth j (localRowExtent d) 0 + 1).
Proof. exact default_distributed_partition. Qed.
Print Assumptions c23_default_domain_partition.

(** more rows than ranks, not divisible; fewer rows than ranks *)
Example c23_default_domain_ex :
  default_domain 3 8 5 Distributed (repeat 7 3) (repeat 7 3) (repeat 7 3) (repeat 7 3) (repeat 7 3) =
  Ok (mkDomain 8 5 [0; 3; 6] [3; 6; 8] [3; 3; 2] [15; 15; 10] [0; 15; 30]) /\
  default_domain 3 2 5 Distributed (repeat 7 3) (repeat 7 3) (repeat 7 3) (repeat 7 3) (repeat 7 3) =
  Ok (mkDomain 2 5 [0; 1; 2] [1; 2; 2] [1; 1; 0] [5; 5; 0] [0; 5; 10]).
Proof. split; reflexivity. Qed.

Theorem c23_sequential_domain_full : forall P N M d1 d2 d3 d4 d5,
  length d1 = P -> length d2 = P -> length d3 = P -> length d4 = P -> length d5 = P ->
  exists d, default_domain P N M Sequential d1 d2 d3 d4 d5 = Ok d /\
    dom_shape P d /\ dom_consistent P M d /\
    (forall i r, i < P -> owns d i r <-> r < N) /\
    (forall i, i < P -> nth i (localDispl d) 0 = 0).
Proof. exact default_sequential_full. Qed.
Print Assumptions c23_sequential_domain_full.

Example c23_sequential_domain_ex :
  default_domain 2 8 5 Sequential (repeat 7 2) (repeat 7 2) (repeat 7 2) (repeat 7 2) (repeat 7 2) =
  Ok (mkDomain 8 5 [0; 0] [8; 8] [8; 8] [40; 40] [0; 0]).
Proof. reflexivity. Qed.

Theorem c23_update_domain_partition : forall P d0 pmin pmax nodes,
  0 < P -> dom_shape P d0 -> length pmin = P -> length pmax = P ->
  nth 0 pmin 0 = 1 -> nth (P - 1) pmax 0 = length nodes ->
  (forall i, i < P -> 1 <= nth i pmin 0 <= S (nth i pmax 0) /\ nth i pmax 0 <= length nodes) ->
  (forall i, S i < P -> nth (S i) pmin 0 = S (nth i pmax 0)) ->
  exists d, update_domain P d0 pmin pmax nodes = Ok d /\
    dom_shape P d /\ dom_consistent P (totalCols d0) d /\ dom_partition P (list_sum nodes) d /\
    (forall i, i < P -> nth i (localDispl d) 0 = nth i (localRowMin d) 0 * totalCols d0) /\
    (forall i, i < P -> nth i (localRowExtent d) 0 = list_sum (firstn (nth i pmax 0 - (nth i pmin 0 - 1)) (skipn (nth i pmin 0 - 1) nodes))).
Proof. exact update_domain_partition. Qed.
Print Assumptions c23_update_domain_partition.

(** five parts on three ranks, one of them empty *)
Example c23_update_domain_ex :
  let d0 := mkDomain 10 5 (repeat 7 3) (repeat 7 3) (repeat 7 3) (repeat 7 3) (repeat 7 3) in
  let pmin := [1; 3; 6] in let pmax := [2; 5; 5] in let nodes := [3; 1; 2; 0; 4] in
  dom_shape 3 d0 /\
  (forall i, i < 3 -> 1 <= nth i pmin 0 <= S (nth i pmax 0) /\ nth i pmax 0 <= length nodes) /\
  (forall i, S i < 3 -> nth (S i) pmin 0 = S (nth i pmax 0)) /\
  nth 2 pmax 0 = length nodes /\
  update_domain 3 d0 pmin pmax nodes = Ok (mkDomain 10 5 [0; 4; 10] [4; 10; 10] [4; 6; 0] [20; 30; 0] [0; 20; 50]).
Proof.
  cbv zeta. split; [repeat split|split; [|split; [|split; reflexivity]]].
  - intros [|[|[|i]]] H; simpl; lia.
  - intros [|[|i]] H; simpl; lia.
Qed.

(** bml_save_domain, bml_update_domain, bml_restore_domain: the domain is what it was.  [d2] is the second domain of the matrix *)
Theorem c23_save_update_restore : forall P d d2 pmin pmax nodes d1,
  dom_shape P d -> dom_shape P d2 -> update_domain P d pmin pmax nodes = Ok d1 ->
  exists d2', copy_domain P d d2 = Ok d2' /\ copy_domain P d2' d1 = Ok d.
Proof. exact save_update_restore. Qed.
Print Assumptions c23_save_update_restore.

Example c23_save_update_restore_ex :
  let d := mkDomain 10 5 [0; 4; 7] [4; 7; 10] [4; 3; 3] [20; 15; 15] [0; 20; 35] in
  let d2 := mkDomain 10 5 [0; 0; 0] [9; 9; 9] [9; 9; 9] [1; 1; 1] [2; 2; 2] in
  dom_shape 3 d /\ dom_shape 3 d2 /\
  update_domain 3 d [1; 3; 6] [2; 5; 5] [3; 1; 2; 0; 4] = Ok (mkDomain 10 5 [0; 4; 10] [4; 10; 10] [4; 6; 0] [20; 30; 0] [0; 20; 50]).
Proof. cbv zeta. split; [repeat split|]. split; [repeat split|]. reflexivity. Qed.
