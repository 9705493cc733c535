(** C34 for the block ellpack format.  [ebmx A] is the matrix A stands for, boff bs k the first row of block k (EllblockSpec.v);
    [sub_sizes bs bs' b nb]: blocks b, b+1, ... b+nb-1 of bs have the sizes of the first nb blocks of bs' (EllblockSubSpec.v). *)
From Verif Require Import Base Spec SpecFacts EllpackModel EllpackSpec EllpackCheck SubSpec
  EllblockModel EllblockSpec EllblockCheck EllblockSubModel EllblockSubSpec EllblockSub EllblockSubCheck.

(** submatrices of whole blocks, whose sizes are those of the default block sizes; the result has the size n of the defaults *)
Theorem c34_ellblock_extract_partial :
  forall (F : scalar) (d : defaults) (A : eb F) (irowb icolb nb n BM : nat) (g : nat -> F),
  ebwf A ->
  positive (bbs A) ->
  sizes_for d n ->
  irowb + nb <= bNB A ->
  icolb + nb <= bNB A ->
  nb <= s_nb d ->
  nb <= s_mb d ->
  sub_sizes (bbs A) (s_bsize d) 0 nb ->
  sub_sizes (bbs A) (s_bsize d) irowb nb ->
  sub_sizes (bbs A) (s_bsize d) icolb nb ->
  BM <= boff (bbs A) nb ->
  let irow := boff (bbs A) irowb in
  let icol := boff (bbs A) icolb in
  let BN := boff (bbs A) nb in
  exists B : eb F,
    eb_extract (Some d) A irow icol BN BM g = Ok (Some d, B) /\
    ebwf B /\
    clean B /\
    bN B = n /\
    meq BN (ebmx B) (sub_at (ebmx A) irow icol) /\
    (forall i j : nat, i < n -> j < n -> BN <= i \/ BN <= j -> ebmx B i j = 0%K).
Proof. exact (@eb_extract_ok). Qed.
Print Assumptions c34_ellblock_extract_partial.

(** with the defaults of A itself the result is as large as A *)
Theorem c34_ellblock_extract_size_refuted :
  exists (c : cache) (A : eb Zscalar) (BN : nat) (B : eb Zscalar),
    ebwf A /\ own_sizes c A /\ uniform 2 A /\ BN <= bN A /\ eb_extract c A 0 0 BN BN Zg = Ok (c, B) /\ bN B <> BN.
Proof. exact (@eb_extract_size_refuted). Qed.
Print Assumptions c34_ellblock_extract_size_refuted.

(** and with blocks of different sizes its elements cannot be read *)
Theorem c34_ellblock_extract_sizes_refuted :
  exists (c : cache) (A : eb Zscalar) (irow icol BN : nat) (B : eb Zscalar),
    ebwf A /\
    own_sizes c A /\
    irow + BN <= bN A /\
    icol + BN <= bN A /\
    eb_extract c A irow icol BN BN Zg = Ok (c, B) /\ (exists i j : nat, i < BN /\ j < BN /\ eb_get_element B i j = UB).
Proof. exact (@eb_extract_sizes_refuted). Qed.
Print Assumptions c34_ellblock_extract_sizes_refuted.

(** where A has no blocks *)
Theorem c34_ellblock_assign_partial :
  forall (F : scalar) (A B : eb F) (irowb icolb : nat) (g : nat -> F),
  ebwf A ->
  ebwf B ->
  positive (bbs A) ->
  irowb + bNB B <= bNB A ->
  icolb + bNB B <= bNB A ->
  sub_sizes (bbs A) (bbs B) 0 (bNB B) ->
  sub_sizes (bbs A) (bbs B) irowb (bNB B) ->
  sub_sizes (bbs A) (bbs B) icolb (bNB B) ->
  (forall ib jb : nat, ib < bNB B -> jb < bNB B -> ~ In (icolb + jb) (bcols A (irowb + ib))) ->
  (forall ib : nat, ib < bNB B -> bnz A (irowb + ib) + bnz B ib <= bMB A) ->
  let irow := boff (bbs A) irowb in
  let icol := boff (bbs A) icolb in
  exists A' : eb F,
    eb_assign A B irow icol g = Ok A' /\
    ebwf A' /\ (clean A -> clean A') /\ same_dims A A' /\ meq (bN A) (ebmx A') (paste (ebmx A) (ebmx B) irow icol (bN B)).
Proof. exact (@eb_assign_ok). Qed.
Print Assumptions c34_ellblock_assign_partial.

(** and not where it has some *)
Theorem c34_ellblock_assign_refuted :
  exists (A B A' : eb Zscalar) (irow icol : nat),
    ebwf A /\
    clean A /\
    ebwf B /\
    bN A = bN B + irow /\
    bN A = bN B + icol /\
    uniform 2 A /\
    uniform 2 B /\
    eb_assign A B irow icol Zg = Ok A' /\
    ~ ebwf A' /\
    (exists i j : nat,
       i < bN A /\
       j < bN A /\ eb_get_element A' i j = Ok (ebmx A i j) /\ ebmx A i j <> paste (ebmx A) (ebmx B) irow icol (bN B) i j).
Proof. exact (@eb_assign_refuted). Qed.
Print Assumptions c34_ellblock_assign_refuted.

Example c34_ellblock_instance : ebwf exEA /\ positive (bbs exEA) /\ sizes_for d22 4 /\
  (exists B, eb_extract (Some d22) exEA 2 0 4 4 Zg = Ok (Some d22, B) /\ ebwf B /\ bN B = 4 /\
    meq 4 (ebmx B) (sub_at (ebmx exEA) 2 0) /\ ebmx B 3 0 = 6%Z) /\
  exists A', eb_assign exE6 exE4 2 2 Zg = Ok A' /\ ebwf A' /\
    meq 6 (ebmx A') (paste (ebmx exE6) (ebmx exE4) 2 2 4) /\ ebmx A' 3 5 = 9%Z /\ ebmx A' 4 0 = 7%Z.
Proof. split; [apply exEA_wf|]. split; [exact exEA_positive|]. split; [exact d22_sizes|]. split; [exact exExtract|exact exAssign]. Qed.
