(* Memory.v : model of folx/experimental/memory.py (compute_memory).
   A value is modelled by its number of bytes (v.size * _bytes_from_dtype(v.dtype), memory.py:16-21, 64-65), known from the
   abstract value jax attaches to every variable; jax.eval_shape runs the function on abstract values only.
   Not modelled: the printing of the largest tensors, the capture of stdout, static_argnums. *)
From Verif Require Export Env.
Set Implicit Arguments.
Local Open Scope Z_scope.

(* a jaxpr with the size in bytes of every variable; an equation may have a sub-jaxpr (pjit or scan body), whose
   variables carry the sizes jax gives them (a scan body sees one slice of the scanned inputs, memory.py:112-119) *)
Inductive mprog := MProg (consts ins : list (var * Z)) (eqns : list (list (atom Z) * list (var * Z) * option mprog)) (outs : list (atom Z)).
(* jax.core.JaxprEqn: inputs, outputs with their sizes, sub-jaxpr *)
Definition meqn : Type := (list (atom Z) * list (var * Z) * option mprog)%type.
(* jaxpr.constvars *)
Definition m_consts p := match p with MProg c _ _ _ => c end.
(* jaxpr.invars *)
Definition m_ins p := match p with MProg _ i _ _ => i end.
(* jaxpr.eqns *)
Definition m_eqns p := match p with MProg _ _ e _ => e end.
(* jaxpr.outvars *)
Definition m_outs p := match p with MProg _ _ _ o => o end.
(* eqn.invars *)
Definition e_ins (e : meqn) : list (atom Z) := fst (fst e).
(* eqn.outvars *)
Definition e_outs (e : meqn) : list (var * Z) := snd (fst e).
(* eqn.params: the jaxpr of pjit or scan (memory.py:95-155) *)
Definition e_sub (e : meqn) : option mprog := snd e.
(* the environment part is the one of Env.v: memory.py:31-59 is the same code as interpreter.py:37-71 *)
Definition m_instr (e : meqn) : instr Z := Instr (e_ins e) (map fst (e_outs e)) (fun _ => Some (map snd (e_outs e))).
(* the jaxpr as a program of Env.v *)
Definition m_code (p : mprog) : code Z :=
  Code (map fst (m_consts p)) (map fst (m_ins p)) (map m_instr (m_eqns p)) (m_outs p).

(* memory.py:24-49: the environment and the counter of bytes *)
Record mst := Mst { mst_s : @st Z; mst_mem : Z }.
(* memory.py:61-65 write *)
Definition mwrite (m : mst) (v : var) (x : Z) : mst :=
  Mst (write (mst_s m) v x) (if 0 <? cnt (mst_s m) v then mst_mem m + x else mst_mem m).
(* memory.py:70-71 write_many *)
Fixpoint mwrite_many (m : mst) (l : list (var * Z)) : mst :=
  match l with [] => m | (v, x) :: l' => mwrite_many (mwrite m v x) l' end.
(* memory.py:73-81 _free_memory, free_memory: subtract the size of every input whose counter is zero *)
Fixpoint mfree (s : @st Z) (mem : Z) (ins : list (atom Z)) (vals : list Z) : Z :=
  match ins, vals with
  | AVar v :: ins', x :: vals' => mfree s (if cnt s v =? 0 then mem - x else mem) ins' vals'
  | ALit _ :: ins', _ :: vals' => mfree s mem ins' vals'
  | _, _ => mem
  end.
(* memory.py:95-155 the loop; subs are the results for the sub-jaxprs (0 without one), None = raised *)
Fixpoint mloop (m : mst) (peak : Z) (es : list meqn) (subs : list (option Z)) : option (mst * Z) :=
  match es, subs with
  | [], _ => Some (m, peak)
  | e :: es', sub :: subs' =>
      match read_many (mst_s m) (e_ins e), sub with
      | Some (vals, s1), Some sp =>
          let m2 := mwrite_many (Mst s1 (mst_mem m)) (e_outs e) in
          let peak' := if peak <? mst_mem m2 + sp then mst_mem m2 + sp else peak in
          mloop (Mst (mst_s m2) (mfree (mst_s m2) (mst_mem m2) (e_ins e) vals)) peak' es' subs'
      | _, _ => None
      end
  | _, [] => None
  end.
(* memory.py:31-49 __init__ *)
Definition minit (p : mprog) : mst :=
  mwrite_many (mwrite_many (Mst (St (fun _ => None) (counts (m_code p))) 0) (m_consts p)) (m_ins p).
(* memory.py:84-160 _compute_jaxpr_memory; ret = return_result: a sub-jaxpr also reads its outputs (line 158) *)
Fixpoint jaxpr_memory (ret : bool) (p : mprog) {struct p} : option Z :=
  match p with
  | MProg _ _ es os =>
      let subs := map (fun e : list (atom Z) * list (var * Z) * option mprog =>
                         match snd e with None => Some 0 | Some q => jaxpr_memory true q end) es in
      match mloop (minit p) 0 es subs with
      | None => None
      | Some (m, peak) => if ret then match read_many (mst_s m) os with None => None | Some _ => Some peak end else Some peak
      end
  end.
(* memory.py:175-219 compute_memory *)
Definition compute_memory (p : mprog) : option Z := jaxpr_memory false p.

(* ---- specification: bytes of live variables ------------------------------------------------------------ *)
(* the variables whose value must be held while equation e runs, between the equations es1 and es2: the arguments and
   constants (held by the caller throughout), everything computed so far that e, a later equation or the output needs,
   and the results of e that are needed afterwards *)
Definition mem_var (v : var) (l : list var) : bool := existsb (Nat.eqb v) l.
(* specification: a variable that is an argument, a constant, an output or read later *)
Definition needed (p : mprog) (todo : list meqn) (v : var) : bool :=
  mem_var v (map fst (m_consts p)) || mem_var v (map fst (m_ins p)) || mem_var v (vars_of (m_outs p))
  || mem_var v (flat_map (fun e => vars_of (e_ins e)) todo).
(* specification: sum of sizes *)
Fixpoint bytes (l : list (var * Z)) : Z := match l with [] => 0 | (_, b) :: l' => b + bytes l' end.
(* specification: bytes of the live variables at an equation *)
Definition live_bytes (p : mprog) (es1 : list meqn) (e : meqn) (es2 : list meqn) : Z :=
  bytes (filter (fun d => needed p (e :: es2) (fst d)) (m_consts p ++ m_ins p ++ flat_map e_outs es1))
  + bytes (filter (fun d => needed p es2 (fst d)) (e_outs e)).
(* m is the least upper bound of 0 and the f values of all program points *)
Definition is_peak (p : mprog) (f : list meqn -> meqn -> list meqn -> Z) (m : Z) : Prop :=
  0 <= m /\ (forall es1 e es2, m_eqns p = es1 ++ e :: es2 -> f es1 e es2 <= m) /\
  (m = 0 \/ exists es1 e es2, m_eqns p = es1 ++ e :: es2 /\ f es1 e es2 = m).
(* single assignment; no equation reads twice a variable nobody needs afterwards; fewer than 2^31 reads of an output *)
Definition ssa (p : mprog) : Prop := NoDup (map fst (m_consts p ++ m_ins p ++ flat_map e_outs (m_eqns p))).
(* specification: no equation reads twice a variable that dies there *)
Definition last_reads_once (p : mprog) : Prop := forall es1 e es2, m_eqns p = es1 ++ e :: es2 ->
  NoDup (filter (fun v => negb (needed p es2 v)) (vars_of (e_ins e))).
(* every variable is defined before it is read *)
Definition scoped (p : mprog) : Prop := forall es1 e es2, m_eqns p = es1 ++ e :: es2 -> forall v, In v (vars_of (e_ins e)) ->
  In v (map fst (m_consts p ++ m_ins p ++ flat_map e_outs es1)).
(* no sub-jaxprs *)
Definition straight_line (p : mprog) : Prop := forall e, In e (m_eqns p) -> e_sub e = None.
