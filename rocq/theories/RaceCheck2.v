(** multiply_x2: memories that meet the hypotheses, and the race of a row that
    does not fit. *)
From Verif Require Import Base BaseFacts Spec SpecFacts EllpackModel EllpackSpec EllpackFacts EllpackCheck
  ThreadModel ThreadFacts RaceModel RaceModel2 RaceSpec RaceCheck.

Definition exM_x2 : mem loc (val Zscalar) :=
  mem_of (F := Zscalar) (obj 0 exB ++ obj 1 exA ++ wso 0 (ws_new (k0 : Zscalar) 3) ++ wso 1 (ws_new (k0 : Zscalar) 3) ++
    [(aAcc 0, inr [0%Z : Zscalar; 0%Z]); (aAcc 1, inr [0%Z : Zscalar; 0%Z])]).

(** a row of X^2 with more than M elements: the surplus element is written to
    the first cell of the next row, which another thread is writing *)
Definition rdX : ell Zscalar := @mkEll Zscalar 2 2 [1; 1; 1; 1]%Z [0; 1; 0; 1] [2; 2].
Definition rdC : ell Zscalar := @mkEll Zscalar 2 1 [0; 0]%Z [0; 0] [0; 0].
Definition rdM : mem loc (val Zscalar) :=
  mem_of (F := Zscalar) (obj 0 rdC ++ obj 1 rdX ++ wso 0 (ws_new (k0 : Zscalar) 2) ++ wso 1 (ws_new (k0 : Zscalar) 2) ++
    [(aAcc 0, inr [0%Z : Zscalar; 0%Z]); (aAcc 1, inr [0%Z : Zscalar; 0%Z])]).

Lemma x2_overflow_race :
  exists (keep : Zscalar -> bool) (X X2 : ell Zscalar) nth sched m, wf X /\ wf X2 /\ eN X2 = eN X /\
    full_sched (eN X) nth sched /\ holds m 0 X2 /\ holds m 1 X /\
    (forall t, t < nth -> holds_ws m t (ws_new k0 (eN X)) /\
       m (aAcc t, 0) = Some (VK k0) /\ m (aAcc t, 1) = Some (VK k0)) /\
    has_race (p_x2_row keep (eN X) (eM X) (eM X2)) sched m.
Proof.
  exists (gtZ 0), rdX, rdC, 2, raS, rdM. split; [apply wfb_ok; reflexivity|]. split; [apply wfb_ok; reflexivity|].
  split; [reflexivity|]. split.
  { split; [apply permb_ok; reflexivity|]. intros t i [H|[H|[]]]; injection H as <- <-; lia. }
  split; [holds_now|]. split; [holds_now|].
  split; [intros [|[|t]] H; [split; [holds_now|split; reflexivity]..|lia]|].
  apply (race_by _ _ _ (repeat 0 51 ++ repeat 1 43) 0 1 (aVal 0, 1) true); [discriminate|]. vm_compute. split; reflexivity.
Qed.
