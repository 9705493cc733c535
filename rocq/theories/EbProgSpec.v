(** Hypotheses of the theorems about programs on block ellpack matrices. *)
From Verif Require Import Base Spec EllpackModel EllpackSpec EllpackExact FormatModel FormatSpec FormatHistModel FormatHistSpec EllblockModel EllblockSpec EbProgModel.

Section EbProgSpec.
  Context {F : scalar}.
  Local Notation eb := (eb F).
  Local Notation env := (env F).
  Local Notation instr := (@instr F).

  (** default sizes that fit matrices of size N: square blocks of side [s], a
      slot for every block of a row *)
  Definition block_sizes (s : nat) (d : defaults) (N : nat) : Prop :=
    0 < s <= 6 /\ sizes_for d N /\ s_nb d <= s_mb d /\ forall ib, ib < s_nb d -> bsz (s_bsize d) ib = s.
  (** a well-formed matrix of size N with the default sizes that stands for X *)
  Definition eb_stands (d : defaults) (N : nat) (A : eb) (X : mat F) : Prop :=
    ebwf A /\ bN A = N /\ bNB A = s_nb d /\ bMB A = s_mb d /\ bbs A = s_bsize d /\ meq N (ebmx A) X.
  Definition eb_schedules (d : defaults) (e : env) : Prop :=
    forall k, full_sched (s_nb d) (e_nth e) (e_rows e k).

  (** After bml_transpose and bml_multiply_x2 the unused slots of the result keep
      pointers to freed blocks, which bml_add would follow (see C46).  [fl] says
      which matrices are free of such pointers: only these may be added to. *)
  Definition adds_to (c : instr) : option nat :=
    match c with
    | IAdd h _ _ _ _ | IAddIdentity h _ _ | IScaleAddIdentity h _ _ _ | IMultiply _ _ h _ _ _ => Some h
    | _ => None
    end.
  Definition flags_after (c : instr) (fl : list bool) : list bool :=
    match c with
    | IMultiplyX2 _ h _ | ITranspose h => set_nth fl h false
    | ITransposeNew _ | ICopyNew _ => fl ++ [true]
    | _ => fl
    end.
  Definition no_element_multiply (c : instr) : Prop := match c with IElementMultiply _ _ _ _ => False | _ => True end.
  Fixpoint ebprogram (N : nat) (fl : list bool) (prog : list instr) : Prop :=
    match prog with
    | [] => True
    | c :: prog => (forall h, In h (handles c) -> h < length fl) /\ distinct_handles c /\ in_bounds N c /\ no_element_multiply c /\
        (forall h, adds_to c = Some h -> nth h fl false = true) /\ ebprogram N (flags_after c fl) prog
    end.
  (** the flags of a store *)
  Definition flagged (s : nat) (fl : list bool) (st : list eb) : Prop :=
    Forall2 (fun A (b : bool) => b = true -> EllblockSpec.roomy (s * s) A) st fl.

  (** the matrix an [amat] stands for *)
  Definition amx (A : amat F) : mat F := match A with AB A => bmx A | AEb A => ebmx A end.
  Definition awf (A : amat F) : Prop := match A with AB A => bwf A | AEb A => ebwf A end.

  (** the matrices of a store, converted one after the other *)
  Fixpoint convert_all (c : cache) (nz : F -> bool) (st : list (amat F)) (t : afmt) (M : nat) (g : nat -> F) : res (cache * list (amat F)) :=
    match st with
    | [] => Ok (c, [])
    | A :: st => '(c, B) <- aml_convert c nz A t M g ;; '(c, Bs) <- convert_all c nz st t M g ;; Ok (c, B :: Bs)
    end.
End EbProgSpec.
