(** The values in Matrix Market files, with decimal and binary rounding.

    fprintf("%20.15g") of src/C-interface/{ellpack,csr}/bml_utilities_<format>_typed.c
    (ellpack 175-193, csr 158-172) and dense/bml_utilities_dense_typed.c 190-194
    writes 15 significant digits, fprintf("%20.15e") of
    ellblock/bml_utilities_ellblock_typed.c 237-247 writes 16.  Simplifications:
    fprintf and fscanf round to nearest, ties to even (as IEC 60559 asks for at
    these numbers of digits); no overflow, no infinities, no NaN. *)
From Coq Require Import Reals ZArith.
From Flocq Require Import Core.
Local Open Scope R_scope.

Definition radix10 : radix := Build_radix 10 (eq_refl true).

(** the number printed with [d] significant digits *)
Definition print_digits (d : Z) (x : R) : R := round radix10 (FLX_exp d) ZnearestE x.
(** a decimal number converted to double (fscanf "%lf"), to float (fscanf
    "%f"); a double converted to float is [to_single] too *)
Definition to_double (x : R) : R := round radix2 (FLT_exp (-1074) 53) ZnearestE x.
Definition to_single (x : R) : R := round radix2 (FLT_exp (-149) 24) ZnearestE x.
(** the values of type float, of type double *)
Definition is_single (x : R) : Prop := generic_format radix2 (FLT_exp (-149) 24) x.
Definition is_double (x : R) : Prop := generic_format radix2 (FLT_exp (-1074) 53) x.

(** written and read again: double (ellpack 64-69, csr 64, dense 76-84) *)
Definition file_double (d : Z) (x : R) : R := to_double (print_digits d x).
(** float, read with "%f" (ellpack 58-63, csr 58-63) *)
Definition file_single (d : Z) (x : R) : R := to_single (print_digits d x).
(** float, read into a double and assigned (dense 69-76, the parts of a
    complex number in ellpack 70-84, csr 69-87, dense 85-92) *)
Definition file_single_via_double (d : Z) (x : R) : R := to_single (to_double (print_digits d x)).
