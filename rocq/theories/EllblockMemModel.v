(** Model of the deallocation of a block ellpack matrix. *)
From Verif Require Import Base Spec EllpackModel EllblockModel.

Section EllblockMem.
  Context {F : scalar}.

  (** bml_deallocate_ellblock, ellblock/bml_allocate_ellblock.c 119-140, without
      BML_ELLBLOCK_USE_MEMPOOL: frees the blocks of the slots in use.  The five
      other objects of the matrix (ptr_value, indexb, nnzb, bsize and the struct,
      lines 135-139) are not in the heap of the blocks; each is freed once. *)
  Definition eb_deallocate (A : eb F) : res (list (option (list F))) :=
    A <- for_n (bNB A) (fun ib A =>
      n <- b_nnz A ib ;;
      for_n n (fun jp A => b_free A (b_at A ib jp)) A) A ;;
    Ok (bheap A).
End EllblockMem.
