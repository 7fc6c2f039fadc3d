(** Model of the allocation registry, src/system/lis_memory.c:98-330.
    The system allocator is the list of its live blocks (base, size); the addresses
    it returns are chosen by the environment and passed in.  free/realloc of an
    address that is not the base of a live block is undefined behaviour. *)
Require Import ZArith List Bool.
From Verif Require Import Base.
Import ListNotations.
Open Scope Z_scope.

(** malloc_address (lis_memory.c): address handed out, address to give to free, size *)
Record reg := mkReg { r_address : Z; r_real : Z; r_size : Z }.
Record mem := mkMem { m_sys : list (Z * Z); m_regs : list reg }.

Definition mem_init : mem := mkMem [] [].

(** free(p): free(NULL) does nothing *)
Fixpoint sys_free (p : Z) (s : list (Z * Z)) : res (list (Z * Z)) :=
  match s with
  | [] => UB
  | (b, z) :: s => if b =? p then Ok s else s' <- sys_free p s ;; Ok ((b, z) :: s')
  end.
Definition sys_free0 (p : Z) (s : list (Z * Z)) : res (list (Z * Z)) := if p =? 0 then Ok s else sys_free p s.

(** addr.l += 0xf; addr.l &= ~0xf *)
Definition align16 (a : Z) : Z := (a + 15) / 16 * 16.

(** lis_malloc 98-126 (and lis_calloc 128-156, whose memset stays in [addr, addr+size)).
    [base] is what malloc(size+16) returned; new records go to the end of the ring. *)
Definition lis_malloc (base size : Z) (s : mem) : Z * mem :=
  let addr := align16 base in
  (addr, mkMem ((base, size + 16) :: m_sys s) (m_regs s ++ [mkReg addr base size])).

Fixpoint find_reg (p : Z) (l : list reg) : option reg :=
  match l with
  | [] => None
  | r :: l => if r_address r =? p then Some r else find_reg p l
  end.
(** unlink the first record whose address is p *)
Fixpoint drop_reg (p : Z) (l : list reg) : list reg :=
  match l with
  | [] => []
  | r :: l => if r_address r =? p then l else r :: drop_reg p l
  end.
Fixpoint set_reg (p : Z) (r' : reg) (l : list reg) : list reg :=
  match l with
  | [] => []
  | r :: l => if r_address r =? p then r' :: l else r :: set_reg p r' l
  end.

(** lis_free 190-211.  A search stops at the ring head, whose address is NULL, so
    looking for NULL finds nothing. *)
Definition lis_free (p : Z) (s : mem) : res mem :=
  match find_reg p (m_regs s) with
  | Some r => sys <- sys_free0 (r_real r) (m_sys s) ;; Ok (mkMem sys (drop_reg p (m_regs s)))
  | None => sys <- sys_free0 p (m_sys s) ;; Ok (mkMem sys (m_regs s))
  end.

(** lis_realloc 158-188: memcpy(address,p,old_size) into the new block *)
Definition lis_realloc (base p size : Z) (s : mem) : res (Z * mem) :=
  match find_reg p (m_regs s) with
  | Some r =>
      let addr := align16 base in
      if base + (size + 16) <? addr + r_size r then UB
      else
        sys <- sys_free0 (r_real r) ((base, size + 16) :: m_sys s) ;;
        Ok (addr, mkMem sys (set_reg p (mkReg addr base size) (m_regs s)))
  | None =>
      (* realloc(p,size): realloc(NULL,size) is malloc(size); not registered *)
      sys <- sys_free0 p ((base, size) :: m_sys s) ;; Ok (base, mkMem sys (m_regs s))
  end.

(** lis_is_malloc 322-338 *)
Definition lis_is_malloc (p : Z) (s : mem) : bool :=
  match find_reg p (m_regs s) with Some _ => true | None => false end.

(** lis_free_all 292-318: empties the ring; the call to free is commented out *)
Definition lis_free_all (s : mem) : mem := mkMem (m_sys s) [].

(** programs; a malloc/realloc call carries the address the system will return *)
Inductive mem_op := MAlloc (base size : Z) | MFree (p : Z) | MRealloc (base p size : Z).
Definition mem_step (o : mem_op) (s : mem) : res mem :=
  match o with
  | MAlloc base size => Ok (snd (lis_malloc base size s))
  | MFree p => lis_free p s
  | MRealloc base p size => ' (_, s) <- lis_realloc base p size s ;; Ok s
  end.
Fixpoint mem_run (ops : list mem_op) (s : mem) : res mem :=
  match ops with [] => Ok s | o :: ops => s <- mem_step o s ;; mem_run ops s end.
