(** Model of the gather/scatter kernels of src/gs_local.c.
    T is the C type of the domain, op the operation "t := t op b" (GS_DO_..., gs_defs.h:33-42,
    modelled in Ops.v), ident its identity, SENT the value UINT_MAX that ends the index lists
    of a map.  Arrays are lists, indices natural numbers.
    Simplification: the products i*vn, j*stride are not reduced modulo 2^32.
    The kernels are called in gs.c both on two different arrays and in place (out = in);
    the input is [Some a] for a separate array and [None] when it is the output array itself. *)
From Verif Require Import Base.

Section Kernels.
Context {T : Type}.
Variable op : T -> T -> T.
Variable ident : T.
Variable SENT : nat.

(** The pointers out and in are declared restrict (gs_local.c:32, 62, 77, 116, 133): when they
    point to the same array, no element written through one may be read through the other.
    Index lists of a map: what is written, what is read by gather (scatter: the converse). *)
Fixpoint heads (first : bool) (map : list nat) : list nat :=
  match map with
  | [] => []
  | x :: r => if x =? SENT then heads true r
              else if first then x :: heads false r else heads false r
  end.
Fixpoint members (first : bool) (map : list nat) : list nat :=
  match map with
  | [] => []
  | x :: r => if x =? SENT then members true r
              else if first then members false r else x :: members false r
  end.
Definition restrict_ok (map : list nat) : bool :=
  forallb (fun i => negb (existsb (Nat.eqb i) (members true map))) (heads true map).

Definition src (inp : option (list T)) (out : list T) : list T :=
  match inp with Some a => a | None => out end.
Definition alias_ok (inp : option (list T)) (map : list nat) : bool :=
  match inp with Some _ => true | None => restrict_ok map end.

(** gather_array_T_OP (gs_local.c:30-35). *)
Fixpoint gather_array (out inp : list T) (n : nat) {struct n} : res (list T) :=
  match n with
  | O => Ok out
  | S n' => match out, inp with
            | p :: out', q :: inp' => r <- gather_array out' inp' n' ;; Ok (op p q :: r)
            | _, _ => UB
            end
  end.

(** init_array_T (gs_local.c:40-45). *)
Fixpoint init_array (out : list T) (n : nat) {struct n} : res (list T) :=
  match n with
  | O => Ok out
  | S n' => match out with
            | _ :: out' => r <- init_array out' n' ;; Ok (ident :: r)
            | _ => UB
            end
  end.

(** Where a kernel is in the map: about to read a head; about to read the first member of
    the group of head i (no check for the sentinel there); about to read a further one.
    t is the C local variable t. *)
Inductive at_pos := AtHead | AtFirst (i : nat) (t : T) | AtNext (i : nat) (t : T).

(** gather_T_OP (gs_local.c:60-71); in[j*in_stride] with in advanced by io elements. *)
Fixpoint gather_loop (inp : option (list T)) (io stride : nat) (st : at_pos)
    (map : list nat) (out : list T) : res (list T) :=
  match map with
  | [] => UB
  | x :: r =>
      match st with
      | AtHead => if x =? SENT then Ok out
                  else t <- rd out x ;; gather_loop inp io stride (AtFirst x t) r out
      | AtFirst i t => v <- rd (src inp out) (io + x * stride) ;;
                       gather_loop inp io stride (AtNext i (op t v)) r out
      | AtNext i t => if x =? SENT
                      then out' <- wr out i t ;; gather_loop inp io stride AtHead r out'
                      else v <- rd (src inp out) (io + x * stride) ;;
                           gather_loop inp io stride (AtNext i (op t v)) r out
      end
  end.
Definition gather_strided inp io stride map out : res (list T) :=
  if alias_ok inp map then gather_loop inp io stride AtHead map out else UB.

(** gs_gather (gs_local.c:206-214). *)
Definition gather inp map out := gather_strided inp 0 1 map out.

(** scatter_T (gs_local.c:76-87). *)
Fixpoint scatter_loop (oo ostride : nat) (inp : option (list T)) (io istride : nat)
    (st : at_pos) (map : list nat) (out : list T) : res (list T) :=
  match map with
  | [] => UB
  | x :: r =>
      match st with
      | AtHead => if x =? SENT then Ok out
                  else t <- rd (src inp out) (io + x * istride) ;;
                       scatter_loop oo ostride inp io istride (AtFirst x t) r out
      | AtFirst i t => out' <- wr out (oo + x * ostride) t ;;
                       scatter_loop oo ostride inp io istride (AtNext i t) r out'
      | AtNext i t => if x =? SENT then scatter_loop oo ostride inp io istride AtHead r out
                      else out' <- wr out (oo + x * ostride) t ;;
                           scatter_loop oo ostride inp io istride (AtNext i t) r out'
      end
  end.
Definition scatter_strided oo ostride inp io istride map out : res (list T) :=
  if alias_ok inp map then scatter_loop oo ostride inp io istride AtHead map out else UB.

(** gs_scatter (gs_local.c:216-222). *)
Definition scatter inp map out := scatter_strided 0 1 inp 0 1 map out.

(** init_T, gs_init (gs_local.c:92-97, 224-230). *)
Fixpoint init_ (map : list nat) (out : list T) : res (list T) :=
  match map with
  | [] => UB
  | x :: r => if x =? SENT then Ok out
              else out' <- wr out x ident ;; init_ r out'
  end.

(** do { GS_DO_OP( *pk,*q); ++pk, ++q; } while(pk!=pe)   (gs_local.c:123); n = pe-pk.
    With n = 0 the loop runs past the array. *)
Fixpoint vec_acc (inp : option (list T)) (n pk q : nat) (out : list T) : res (list T) :=
  match n with
  | O => UB
  | S n' => a <- rd out pk ;; b <- rd (src inp out) q ;; out' <- wr out pk (op a b) ;;
            match n' with
            | O => Ok out'
            | _ => vec_acc inp n' (S pk) (S q) out'
            end
  end.

Inductive at_vec := VHead | VFirst (i : nat) | VNext (i : nat).

(** gather_vec_T_OP (gs_local.c:114-127, 235-243). *)
Fixpoint gather_vec_loop (inp : option (list T)) (vn : nat) (st : at_vec)
    (map : list nat) (out : list T) : res (list T) :=
  match map with
  | [] => UB
  | x :: r =>
      match st with
      | VHead => if x =? SENT then Ok out else gather_vec_loop inp vn (VFirst x) r out
      | VFirst i => out' <- vec_acc inp vn (i * vn) (x * vn) out ;;
                    gather_vec_loop inp vn (VNext i) r out'
      | VNext i => if x =? SENT then gather_vec_loop inp vn VHead r out
                   else out' <- vec_acc inp vn (i * vn) (x * vn) out ;;
                        gather_vec_loop inp vn (VNext i) r out'
      end
  end.
Definition gather_vec inp vn map out : res (list T) :=
  if alias_ok inp map then gather_vec_loop inp vn VHead map out else UB.

(** memcpy of n elements from in+q to out+p (gs_local.c:141). *)
Fixpoint copy_elems (inp : option (list T)) (n p q : nat) (out : list T) : res (list T) :=
  match n with
  | O => Ok out
  | S n' => v <- rd (src inp out) q ;; out' <- wr out p v ;; copy_elems inp n' (S p) (S q) out'
  end.

(** gs_scatter_vec (gs_local.c:132-144). *)
Fixpoint scatter_vec_loop (inp : option (list T)) (vn : nat) (st : at_vec)
    (map : list nat) (out : list T) : res (list T) :=
  match map with
  | [] => UB
  | x :: r =>
      match st with
      | VHead => if x =? SENT then Ok out else scatter_vec_loop inp vn (VFirst x) r out
      | VFirst i => out' <- copy_elems inp vn (x * vn) (i * vn) out ;;
                    scatter_vec_loop inp vn (VNext i) r out'
      | VNext i => if x =? SENT then scatter_vec_loop inp vn VHead r out
                   else out' <- copy_elems inp vn (x * vn) (i * vn) out ;;
                        scatter_vec_loop inp vn (VNext i) r out'
      end
  end.
Definition scatter_vec inp vn map out : res (list T) :=
  if alias_ok inp map then scatter_vec_loop inp vn VHead map out else UB.

(** do *u++ = e; while(u!=ue)  (gs_local.c:155). *)
Fixpoint fill (n p : nat) (out : list T) : res (list T) :=
  match n with
  | O => UB
  | S n' => out' <- wr out p ident ;;
            match n' with O => Ok out' | _ => fill n' (S p) out' end
  end.

(** init_vec_T (gs_local.c:149-158, 245-251). *)
Fixpoint init_vec (vn : nat) (map : list nat) (out : list T) : res (list T) :=
  match map with
  | [] => UB
  | x :: r => if x =? SENT then Ok out
              else out' <- fill vn (vn * x) out ;; init_vec vn r out'
  end.

(** for(k=0;k<vn;++k) f(p[k],q[k])  (gs_local.c:256-288); [None]: p = q, in place. *)
Fixpoint many (f : option (list T) -> list T -> res (list T))
    (inp : option (list (list T))) (vn : nat) (outs : list (list T)) : res (list (list T)) :=
  match vn with
  | O => Ok outs
  | S n => match outs with
           | [] => UB
           | o :: outs' =>
               match inp with
               | None => o' <- f None o ;; r <- many f None n outs' ;; Ok (o' :: r)
               | Some [] => UB
               | Some (a :: ins') => o' <- f (Some a) o ;;
                                     r <- many f (Some ins') n outs' ;; Ok (o' :: r)
               end
           end
  end.

(** gs_gather_many, gs_scatter_many, gs_init_many (gs_local.c:256-288). *)
Definition gather_many inp vn map outs := many (fun i o => gather i map o) inp vn outs.
Definition scatter_many inp vn map outs := many (fun i o => scatter i map o) inp vn outs.
Definition init_many vn map outs := many (fun _ o => init_ map o) None vn outs.

(** gs_gather_vec_to_many (gs_local.c:295-307): k counts the arrays already done. *)
Fixpoint gather_vec_to_many_loop (inp : list T) (vn map_k : nat) (n : nat) (map : list nat)
    (outs : list (list T)) : res (list (list T)) :=
  match n with
  | O => Ok outs
  | S n' => match outs with
            | [] => UB
            | o :: outs' => o' <- gather_strided (Some inp) map_k vn map o ;;
                            r <- gather_vec_to_many_loop inp vn (S map_k) n' map outs' ;;
                            Ok (o' :: r)
            end
  end.
Definition gather_vec_to_many inp vn map outs := gather_vec_to_many_loop inp vn 0 vn map outs.

(** gs_scatter_many_to_vec (gs_local.c:309-319). *)
Fixpoint scatter_many_to_vec_loop (ins : list (list T)) (vn k : nat) (n : nat)
    (map : list nat) (out : list T) {struct n} : res (list T) :=
  match n with
  | O => Ok out
  | S n' => match ins with
            | [] => UB
            | a :: ins' => out' <- scatter_strided k vn (Some a) 0 1 map out ;;
                           scatter_many_to_vec_loop ins' vn (S k) n' map out'
            end
  end.
Definition scatter_many_to_vec ins vn map out := scatter_many_to_vec_loop ins vn 0 vn map out.

(** gs_scatter_vec_to_many (gs_local.c:321-331). *)
Fixpoint scatter_vec_to_many_loop (inp : list T) (vn k : nat) (n : nat) (map : list nat)
    (outs : list (list T)) : res (list (list T)) :=
  match n with
  | O => Ok outs
  | S n' => match outs with
            | [] => UB
            | o :: outs' => o' <- scatter_strided 0 1 (Some inp) k vn map o ;;
                            r <- scatter_vec_to_many_loop inp vn (S k) n' map outs' ;;
                            Ok (o' :: r)
            end
  end.
Definition scatter_vec_to_many inp vn map outs := scatter_vec_to_many_loop inp vn 0 vn map outs.

End Kernels.
