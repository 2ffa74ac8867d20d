(* Model of the storage of spffl/containers/tvector.h and tstack.h: buffers with
   explicit sizes; an access outside the buffer is UB.  dflt is the value of a
   default-constructed element.  Definitions only. *)
From Verif Require Import Base.
Open Scope Z_scope.

Section Cont.
Context {A : Type} (dflt : A).

(* new element_type[n] *)
Definition new_buf (n : Z) : list A := repeat dflt (Z.to_nat n).
(* elements[i] as an rvalue / lvalue *)
Definition rd (b : list A) (i : Z) : res A :=
  if i <? 0 then UB else match nth_error b (Z.to_nat i) with Some x => Ok x | None => UB end.
Fixpoint upd (b : list A) (i : nat) (x : A) : list A :=
  match b, i with
  | [], _ => []
  | _ :: t, O => x :: t
  | y :: t, S j => y :: upd t j x
  end.
Definition wr (b : list A) (i : Z) (x : A) : res (list A) :=
  if (i <? 0) || (i >=? Z.of_nat (length b)) then UB else Ok (upd b (Z.to_nat i) x).
(* for (i = k; i < k + n; i++) dst[i] = src[i]; *)
Fixpoint copy_loop (n : nat) (k : Z) (dst src : list A) : res (list A) :=
  match n with
  | O => Ok dst
  | S n' => x <- rd src k ;; dst' <- wr dst k x ;; copy_loop n' (k + 1) dst' src
  end.
(* for (i = k; i < k + n; i++) dst[i] = e; *)
Fixpoint fill_loop (n : nat) (k : Z) (dst : list A) (e : A) : res (list A) :=
  match n with
  | O => Ok dst
  | S n' => dst' <- wr dst k e ;; fill_loop n' (k + 1) dst' e
  end.

(* ---- tvector: elements pointer (None = null) and num_elements *)
Record tvec := mkvec { vbuf : option (list A); vnum : Z }.
(* tvector.h:41-44 *)
Definition vec_empty : tvec := mkvec None 0.
(* tvector.h:47-57 *)
Definition vec_new (n : Z) : res tvec :=
  if n <=? 0 then Exn else Ok (mkvec (Some (new_buf n)) n).
(* tvector.h:60-73 *)
Definition vec_fill (e : A) (n : Z) : res tvec :=
  if n <=? 0 then Exn
  else b <- fill_loop (Z.to_nat n) 0 (new_buf n) e ;; Ok (mkvec (Some b) n).
Definition buf_of (v : tvec) : list A := match vbuf v with Some b => b | None => [] end.
(* tvector.h:76-82: copy constructor *)
Definition vec_copy (that : tvec) : res tvec :=
  b <- copy_loop (Z.to_nat (vnum that)) 0 (new_buf (vnum that)) (buf_of that) ;;
  Ok (mkvec (Some b) (vnum that)).
(* tvector.h:97-109.  Line 98 overwrites num_elements, so the comparison at
   line 101 compares that.num_elements with itself. *)
Definition vec_assign (this that : tvec) : res tvec :=
  let num := vnum that in
  let b := match vbuf this with
           | None => new_buf (vnum that)
           | Some b => if num <? vnum that then new_buf (vnum that) else b
           end in
  b' <- copy_loop (Z.to_nat (vnum that)) 0 b (buf_of that) ;;
  Ok (mkvec (Some b') num).
(* tvector.h:112-123 *)
Definition vec_assign_scalar (this : tvec) (e : A) : res tvec :=
  match vbuf this with
  | Some b => b' <- fill_loop (Z.to_nat (vnum this)) 0 b e ;; Ok (mkvec (Some b') (vnum this))
  | None => b' <- wr (new_buf 1) 0 e ;; Ok (mkvec (Some b') 1)
  end.
(* tvector.h:235-243: operator[], read and write *)
Definition vec_get (v : tvec) (i : Z) : res A :=
  if (i <? 0) || (i >=? vnum v) then Exn else rd (buf_of v) i.
Definition vec_set (v : tvec) (i : Z) (x : A) : res tvec :=
  if (i <? 0) || (i >=? vnum v) then Exn
  else b <- wr (buf_of v) i x ;; Ok (mkvec (Some b) (vnum v)).

(* ---- tstack *)
Record tstack := mkstack { sbuf : list A; salloc : Z; sfree : Z }.
(* tstack.h:21-25, with TSTACK_INIT_SIZE = 10 (line 14) *)
Definition stack_new : tstack := mkstack (new_buf 10) 10 0.
(* tstack.h:28-35 *)
Definition stack_copy (that : tstack) : res tstack :=
  b <- copy_loop (Z.to_nat (sfree that)) 0 (new_buf (salloc that)) (sbuf that) ;;
  Ok (mkstack b (salloc that) (sfree that)).
(* tstack.h:61-73, with TSTACK_INCR_SIZE = 10 (line 15) *)
Definition stack_push (s : tstack) (e : A) : res tstack :=
  s' <- (if sfree s >=? salloc s then
           na <- iadd (salloc s) 10 ;;
           b <- copy_loop (Z.to_nat (sfree s)) 0 (new_buf na) (sbuf s) ;;
           Ok (mkstack b na (sfree s))
         else Ok s) ;;
  b <- wr (sbuf s') (sfree s') e ;;
  f <- iadd (sfree s') 1 ;;
  Ok (mkstack b (salloc s') f).
(* tstack.h:76-84: None is the return value false *)
Definition stack_pop (s : tstack) : res (option A * tstack) :=
  if sfree s >? 0 then
    let f := sfree s - 1 in
    x <- rd (sbuf s) f ;; Ok (Some x, mkstack (sbuf s) (salloc s) f)
  else Ok (None, s).

(* A client: a sequence of pushes, pops and copies (continuing with the copy);
   the results of the pops are collected. *)
Inductive sop := Push (e : A) | Pop | Copy.
Fixpoint run_stack (ops : list sop) (s : tstack) : res (list (option A)) :=
  match ops with
  | [] => Ok []
  | Push e :: t => s' <- stack_push s e ;; run_stack t s'
  | Pop :: t => '(r, s') <- stack_pop s ;; rs <- run_stack t s' ;; Ok (r :: rs)
  | Copy :: t => s' <- stack_copy s ;; run_stack t s'
  end.
End Cont.
