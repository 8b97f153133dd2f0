(** C09, when a function returns. *)
From Verif Require Import Base RleVec Pool Vecc Float NumText Bytecode Chunk Value Ast Arith VmOps
                          Compiler Vm SpecVm ExProg ProofVmEx ProofVars2 ProofReadyEx.

(** When a function returns, each captured variable of that function keeps the value it has
    then, in the cell its closures hold; the variables of the callers stay where they are,
    and variables that were detached before keep their values. *)
Theorem C09_return :
  forall (D : Type) m (hst : host D) d sc o bs s s',
  reach m hst (vm_new_with d sc o bs) s -> next_instr s = Some IReturn -> step m hst s = SNext s' ->
  forall c, nth_error (v_heap s') c =
    match nth_error (v_heap s) c with
    | Some (Open l) => if (f_st (v_frame s) <=? l) && (l <? pred (v_sp s))
                       then option_map Closed (nth_error (v_stack s) l) else Some (Open l)
    | x => x
    end.
Proof. exact @return_cells. Qed.
Print Assumptions C09_return.

(** The call of [make(3)] of the example program returns; its variable is captured. *)
Example C09_return_example :
  reach Release plain_host tour_vm (at_step 8 tour_vm) /\ next_instr (at_step 8 tour_vm) = Some IReturn /\
  (exists s', step Release plain_host (at_step 8 tour_vm) = SNext s') /\
  v_heap (at_step 8 tour_vm) = [Open 2] /\ v_heap (at_step 9 tour_vm) = [Closed (VInt 3)].
Proof.
  split; [apply at_step_reach; eexists; vm_compute; reflexivity|]. split; [vm_compute; reflexivity|].
  split; [eexists; vm_compute; reflexivity|]. split; vm_compute; reflexivity.
Qed.
