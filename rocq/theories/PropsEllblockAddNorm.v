(** C58 for bml_add_norm of the block ellpack format.  [ebmx A] is the matrix A stands for, [bcut] the threshold per block,
    [an_slots]: every kept block finds an object that is large enough in the slot it is put in, [blk_norm4 bs NB X]: the sum over the
    blocks of X of the square of the sum of their squares (EllblockAddNormSpec.v); [add_fits]: such an object or none (EllblockSpec.v). *)
From Verif Require Import Base Spec SpecFacts EllpackModel EllpackSpec EllpackCheck
  EllblockModel EllblockSpec EllblockCheck EllblockAddNormModel EllblockAddNorm EllblockAddNormSpec EllblockAddNormTotal EllblockAddNormCheck.

(** where the slots needed exist and blocks have at most 25 elements, for any factors: it returns, A is the sum, and the number is the sum over the blocks of A - B of the squares of their sums of squares *)
Theorem c58_add_norm_returns_partial :
  forall (F : scalar) (keep : F -> bool) (alpha beta : F) (A B : eb F),
  ebwf A ->
  tidy A ->
  ebwf B ->
  eb_dims A B ->
  bMB A = bMB B ->
  an_slots keep alpha beta A B ->
  (forall ib jb : nat, ib < bNB A -> jb < bNB A -> bsz (bbs A) ib * bsz (bbs A) jb <= BMAXSIZE) ->
  exists A' : eb F,
    eb_add_norm keep alpha beta A B = Ok (A', blk_norm4 (bbs A) (bNB A) (fun i j : nat => (ebmx A i j - ebmx B i j)%K)) /\
    ebwf A' /\
    tidy A' /\
    same_dims A A' /\ meq (bN A) (ebmx A') (bcut (bbs A) keep (madd (mscale alpha (ebmx A)) (mscale beta (ebmx B)))).
Proof. exact (@eb_add_norm_ok). Qed.
Print Assumptions c58_add_norm_returns_partial.

Example c58_add_norm_returns_instance : ebwf exEA /\ tidy exEA /\ ebwf exEC /\ eb_dims exEA exEC /\ bMB exEA = bMB exEC /\
  an_slots (F:=Zscalar) (gtZ 0) 2%Z 3%Z exEA exEC /\ an_slots (F:=Zscalar) (gtZ 0) 0%Z 3%Z exEA exEC /\
  (forall ib jb, ib < bNB exEA -> jb < bNB exEA -> bsz (bbs exEA) ib * bsz (bbs exEA) jb <= BMAXSIZE) /\
  blk_norm4 (F:=Zscalar) (bbs exEA) (bNB exEA) (fun i j => (ebmx exEA i j - ebmx exEC i j)%Z) = 2854%Z.
Proof. split; [apply exEA_wf|]. split; [apply exEA_roomy|]. split; [apply exEC_wf|]. split; [exact exEAC_dims|]. split; [reflexivity|]. split; [apply exAN_slots|]. split; [apply exAN_slots|]. split; [exact exAN_size|exact exAN_value]. Qed.

(** where it returns, for blocks of at most 25 elements and factors other than 0, A is the sum; that it returns is not proved, and false in general *)
Theorem c58_add_norm_partial :
  forall (F : scalar) (keep : F -> bool) (alpha beta : F) (A B A' : eb F) (t : F),
  ebwf A ->
  tidy A ->
  ebwf B ->
  eb_dims A B ->
  bMB A = bMB B ->
  add_fits keep alpha beta A B ->
  alpha <> 0%K ->
  beta <> 0%K ->
  (forall ib jb : nat, ib < bNB A -> jb < bNB A -> bsz (bbs A) ib * bsz (bbs A) jb <= BMAXSIZE) ->
  eb_add_norm keep alpha beta A B = Ok (A', t) ->
  ebwf A' /\
  tidy A' /\
  same_dims A A' /\ meq (bN A) (ebmx A') (bcut (bbs A) keep (madd (mscale alpha (ebmx A)) (mscale beta (ebmx B)))).
Proof. exact (@eb_add_norm_sum). Qed.
Print Assumptions c58_add_norm_partial.

Example c58_add_norm_instance : ebwf exEA /\ clean exEA /\ ebwf exEC /\ eb_dims exEA exEC /\ bMB exEA = bMB exEC /\ add_fits (gtZ 0) 2%Z 3%Z exEA exEC /\
  (forall ib jb, ib < bNB exEA -> jb < bNB exEA -> bsz (bbs exEA) ib * bsz (bbs exEA) jb <= BMAXSIZE) /\
  eb_add_norm (F:=Zscalar) (gtZ 0) 2%Z 3%Z exEA exEC = Ok (exAN, 2854%Z) /\ ebmx exAN 1 5 = 12%Z /\ ebmx exAN 5 0 = 15%Z.
Proof. split; [apply exEA_wf|]. split; [apply exEA_wf|]. split; [apply exEC_wf|]. split; [exact exEAC_dims|]. split; [reflexivity|]. split; [exact exEAC_fits|]. split; [exact exAN_size|exact exAN_ok]. Qed.

(** the number returned is not the squared Frobenius norm of A - B *)
Theorem c58_add_norm_value_refuted :
  exists (A B A' : eb Zscalar) (t : Zscalar),
    ebwf A /\
    clean A /\
    ebwf B /\
    clean B /\
    eb_dims A B /\
    bMB A = bMB B /\
    eb_add_norm (F:=Zscalar) (gtZ 0) 1%Z 1%Z A B = Ok (A', t) /\
    t <> bigsum (bN A) (fun i : nat => bigsum (F:=Zscalar) (bN A) (fun j : nat => let d := (ebmx A i j - ebmx B i j)%Z in (d * d)%Z)).
Proof. exact (@eb_add_norm_value_refuted). Qed.
Print Assumptions c58_add_norm_value_refuted.

(** a block of B where A has no slot is written through a null pointer *)
Theorem c58_add_norm_null_refuted :
  exists A B : eb Zscalar,
    ebwf A /\
    clean A /\ ebwf B /\ clean B /\ eb_dims A B /\ bMB A = bMB B /\ bMB A = bNB A /\ eb_add_norm (F:=Zscalar) (gtZ 0) 1%Z 1%Z A B = UB.
Proof. exact (@eb_add_norm_null_refuted). Qed.
Print Assumptions c58_add_norm_null_refuted.

(** the work arrays have 25 elements per block whatever the block sizes are *)
Theorem c58_add_norm_size_refuted :
  exists A : eb Zscalar, ebwf A /\ clean A /\ eb_add_norm (F:=Zscalar) (gtZ 0) 1%Z 1%Z A A = UB.
Proof. exact (@eb_add_norm_size_refuted). Qed.
Print Assumptions c58_add_norm_size_refuted.
