(** Model of the CSR <-> DNS conversions, src/matrix/lis_matrix_dns.c *)
Require Import ZArith List.
From Verif Require Import Base Scalar Spec.
Import ListNotations.
Open Scope Z_scope.

Section Dns.
Context {T : Type} {S : Scalar T}.

(** lis_matrix_convert_csr2dns, lis_matrix_dns.c:745-814, with one thread
    (LIS_GET_ISIE gives is=0, ie=n).  lis_matrix_malloc_dns allocates np*n scalars. *)
Definition convert_csr2dns (jv : Z -> T) (A : csr T) : res (dns T) :=
  let n := csr_n A in let np := csr_np A in
  let value := alloc (np * n) jv in
  value <- for_ 0 np (fun j value => for_ 0 n (fun i value => wr value (j * n + i) s0) value) value ;;
  value <- for_ptr n (csr_ptr A) (fun i j value =>
             c <- rd (csr_index A) j ;;
             v <- rd (csr_value A) j ;;
             wr value (i + n * c) v) value ;;
  Ok (mkDns n np value).

(** lis_matrix_convert_dns2csr, lis_matrix_dns.c:819-927 *)
Definition convert_dns2csr (jp ji : Z -> Z) (jv : Z -> T) (A : dns T) : res (csr T) :=
  let n := dns_n A in let np := dns_np A in
  let ptr := alloc (n + 1) jp in
  ptr <- for_ 0 n (fun i ptr =>
           ptr <- wr ptr (i + 1) 0 ;;
           for_ 0 np (fun j ptr =>
             v <- rd (dns_value A) (j * n + i) ;;
             if nonzero v then incr ptr (i + 1) else Ok ptr) ptr) ptr ;;
  ptr <- wr ptr 0 0 ;;
  ptr <- for_ 0 n (fun i ptr => a <- rd ptr (i + 1) ;; b <- rd ptr i ;; wr ptr (i + 1) (a + b)) ptr ;;
  nnz <- rd ptr n ;;
  let index := alloc nnz ji in
  let value := alloc nnz jv in
  ' (index, value) <- for_ 0 n (fun i s =>
      let '(index, value) := s in
      k <- rd ptr i ;;
      ' (k, index, value) <- for_ 0 np (fun j s =>
          let '(k, index, value) := s in
          v <- rd (dns_value A) (j * n + i) ;;
          if nonzero v then
            (value <- wr value k v ;;
             index <- wr index k j ;;
             Ok (k + 1, index, value))
          else Ok (k, index, value)) (k, index, value) ;;
      Ok (index, value)) (index, value) ;;
  Ok (mkCsr n np nnz ptr index value).

End Dns.
