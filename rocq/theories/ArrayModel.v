(** * ArrayModel: reference-counted arrays.

    Models src/hif/ds/Array.hpp: the objects, the reference counters and the
    buffers.  Buffer contents are not modelled, only which buffer an object
    points to, whether it is still allocated and how long it is. *)
From Coq Require Import List Arith Lia Bool.
From Verif Require Import Base.
Import ListNotations.

(** DATA_UNDEF / DATA_OWN / DATA_WRAP, Array.hpp:58-63. *)
Inductive status : Type := UNDEF | OWN | WRAP.

(** Array.hpp:453-459: [_data], [_size], [_cap], [_status], [_counts]. *)
Record arr : Type := mkArr {
  a_data : option nat; a_size : nat; a_cap : nat; a_status : status; a_cnt : option nat }.

(** A buffer: its length and whether it is allocated; who must release it: the
    library ([BOwned]), the user ([BExt]: wrapped or stolen). *)
Inductive bkind : Type := BOwned | BExt.
Record buf : Type := mkBuf { b_len : nat; b_kind : bkind; b_alive : bool; b_frees : nat }.

(** _RefCount, Array.hpp:87-104. *)
Record ctr : Type := mkCtr { c_n : nat; c_invalid : bool; c_alive : bool }.

(** Objects are C++ variables, [None] = not constructed (or destroyed). *)
Record heap : Type := mkHeap { h_arrs : list (option arr); h_bufs : list buf; h_ctrs : list ctr }.

Definition set_arr (h : heap) (s : nat) (a : option arr) : heap :=
  mkHeap (upd (h_arrs h) s a) (h_bufs h) (h_ctrs h).

(** [new _RefCount()]. *)
Definition new_ctr (h : heap) : heap * nat :=
  (mkHeap (h_arrs h) (h_bufs h) (h_ctrs h ++ [mkCtr 1 false true]), length (h_ctrs h)).

(** [new (std::nothrow) value_type[n]]; [ok = false]: out of memory. *)
Definition new_buf (h : heap) (n : nat) (ok : bool) : heap * option nat :=
  if ok then (mkHeap (h_arrs h) (h_bufs h ++ [mkBuf n BOwned true 0]) (h_ctrs h), Some (length (h_bufs h)))
  else (h, None).

(** A live counter, for [->]; dangling or null: [UB]. *)
Definition live_ctr (h : heap) (c : option nat) : res (nat * ctr) :=
  match c with
  | None => UB
  | Some k => r <- get (h_ctrs h) k ;; if c_alive r then Ok (k, r) else UB
  end.
Definition put_ctr (h : heap) (k : nat) (r : ctr) : heap :=
  mkHeap (h_arrs h) (h_bufs h) (upd (h_ctrs h) k r).

(** [_counts->inc()], [_counts->dec()], Array.hpp:91-92 ([size_type] underflow is [UB]
    here: it never happens). *)
Definition ctr_inc (h : heap) (c : option nat) : res heap :=
  '(k, r) <- live_ctr h c ;; Ok (put_ctr h k (mkCtr (S (c_n r)) (c_invalid r) true)).
Definition ctr_dec (h : heap) (c : option nat) : res heap :=
  '(k, r) <- live_ctr h c ;;
  match c_n r with 0 => UB | S m => Ok (put_ctr h k (mkCtr m (c_invalid r) true)) end.

(** [delete[] _data]: only memory obtained from [new] and not yet released. *)
Definition free_buf (h : heap) (d : nat) : res heap :=
  b <- get (h_bufs h) d ;;
  match b_kind b, b_alive b with
  | BOwned, true => Ok (mkHeap (h_arrs h) (upd (h_bufs h) d (mkBuf (b_len b) BOwned false (S (b_frees b)))) (h_ctrs h))
  | _, _ => UB
  end.

(** ~Array(), Array.hpp:193-208, on the object [a]; returns the heap. *)
Definition dtor (h : heap) (a : arr) : res heap :=
  match a_cnt a with
  | None => Ok h
  | Some c =>
      h <- ctr_dec h (Some c) ;;
      '(k, r) <- live_ctr h (Some c) ;;
      h <- (match a_data a, a_status a with
            | Some d, OWN => if (c_n r =? 0) && negb (c_invalid r) then free_buf h d else Ok h
            | _, _ => Ok h
            end) ;;
      if c_n r =? 0 then Ok (put_ctr h c (mkCtr 0 (c_invalid r) false)) else Ok h
  end.

Inductive aop : Type :=
| ODefault (s : nat)                          (* Array()            :117-122 *)
| ONew (s n : nat) (ok : bool)                (* Array(n)           :127-139 *)
| OCopyFrom (s n : nat) (ok : bool)           (* Array(n,data,false):155-172 *)
| OWrap (s n p : nat)                         (* Array(n,data,true) :155-172 *)
| OCopy (d s : nat)                           (* Array(other)       :214-224 *)
| OClone (d s : nat)                          (* Array(other,true)  :224-232 *)
| OMove (d s : nat)                           (* Array(Array&&)     :247-255 *)
| OAssign (d s : nat)                         (* operator=(const&)  :260-272 *)
| OMoveAssign (d s : nat)                     (* operator=(&&)      :277-289 *)
| OSwap (d s : nat)                           (* swap               :328-334 *)
| OResize (s n cap : nat) (ok : bool)         (* resize             :351-376 *)
| OReserve (s n : nat) (ok : bool)            (* reserve            :382-403 *)
| OSteal (s : nat)                            (* steal_array_ownership :479-498 *)
| ODestroy (s : nat).                         (* end of life *)

(** Slot [s] is free / holds an object. *)
Definition free_slot (h : heap) (s : nat) : res unit :=
  o <- get (h_arrs h) s ;; match o with None => Ok tt | Some _ => UB end.
Definition object (h : heap) (s : nat) : res arr :=
  o <- get (h_arrs h) s ;; match o with None => UB | Some a => Ok a end.

Definition same_ptr (p q : option nat) : bool :=
  match p, q with None, None => true | Some a, Some b => a =? b | _, _ => false end.

(** RESET_ARRAY, Array.hpp:236-242. *)
Definition reset_arr : arr := mkArr None 0 0 UNDEF None.

(** [std::copy_n(_data, _size, ...)] reads every element: null or released memory is [UB]. *)
Definition readall (h : heap) (a : arr) : res unit :=
  if a_size a =? 0 then Ok tt
  else match a_data a with
       | None => UB
       | Some d => b <- get (h_bufs h) d ;; if b_alive b && (a_size a <=? b_len b) then Ok tt else UB
       end.

Definition astep (o : aop) (h : heap) : res heap :=
  match o with
  | ODefault s =>
      _ <- free_slot h s ;;
      let '(h, c) := new_ctr h in
      Ok (set_arr h s (Some (mkArr None 0 0 UNDEF (Some c))))
  | ONew s n ok =>
      _ <- free_slot h s ;;
      let '(h, d) := new_buf h n ok in
      let '(h, c) := new_ctr h in
      Ok (set_arr h s (Some (if ok then mkArr d n n OWN (Some c) else mkArr None 0 0 UNDEF (Some c))))
  | OCopyFrom s n ok =>
      _ <- free_slot h s ;;
      let '(h, c) := new_ctr h in
      let '(h, d) := new_buf h n ok in
      Ok (set_arr h s (Some (mkArr d n n (if ok then OWN else UNDEF) (Some c))))
  | OWrap s n p =>
      _ <- free_slot h s ;;
      b <- get (h_bufs h) p ;;
      let '(h, c) := new_ctr h in
      Ok (set_arr h s (Some (mkArr (Some p) n n WRAP (Some c))))
  | OCopy d s =>
      _ <- free_slot h d ;; a <- object h s ;;
      h <- ctr_inc h (a_cnt a) ;;
      Ok (set_arr h d (Some a))
  | OClone d s =>
      _ <- free_slot h d ;; a <- object h s ;;
      _ <- readall h a ;;
      let '(h, c) := new_ctr h in
      let '(h, p) := new_buf h (a_size a) true in
      Ok (set_arr h d (Some (mkArr p (a_size a) (a_size a) OWN (Some c))))
  | OMove d s =>
      _ <- free_slot h d ;; a <- object h s ;;
      Ok (set_arr (set_arr h d (Some a)) s (Some reset_arr))
  | OAssign d s =>
      t <- object h d ;; a <- object h s ;;
      if same_ptr (a_data t) (a_data a) then Ok h
      else
        h <- dtor h t ;;
        h <- ctr_inc h (a_cnt a) ;;
        Ok (set_arr h d (Some a))
  | OMoveAssign d s =>
      t <- object h d ;; a <- object h s ;;
      if same_ptr (a_data t) (a_data a) then Ok h
      else
        h <- dtor h t ;;
        Ok (set_arr (set_arr h d (Some a)) s (Some reset_arr))
  | OSwap d s =>
      t <- object h d ;; a <- object h s ;;
      Ok (set_arr (set_arr h d (Some a)) s (Some t))
  | OResize s n cap ok =>
      a <- object h s ;;
      if n <=? a_cap a then Ok (set_arr h s (Some (mkArr (a_data a) n (a_cap a) (a_status a) (a_cnt a))))
      else
        let cap := Nat.max n cap in  (* [_size ? 1.2*n : n]: any capacity of at least [n] *)
        _ <- (if ok then readall h a else Ok tt) ;;
        let '(h, d) := new_buf h cap ok in
        h <- dtor h a ;;
        let '(h, c) := new_ctr h in
        Ok (set_arr h s (Some (if ok then mkArr d n cap OWN (Some c) else mkArr None 0 0 UNDEF (Some c))))
  | OReserve s n ok =>
      a <- object h s ;;
      if n <=? a_cap a then Ok h
      else
        _ <- (if ok then readall h a else Ok tt) ;;
        let '(h, d) := new_buf h n ok in
        h <- dtor h a ;;
        let '(h, c) := new_ctr h in
        Ok (set_arr h s (Some (if ok then mkArr d (a_size a) n OWN (Some c) else mkArr None 0 0 UNDEF (Some c))))
  | OSteal s =>
      a <- object h s ;;
      match a_status a, a_data a with
      | OWN, Some d =>
          '(k, r) <- live_ctr h (a_cnt a) ;;
          b <- get (h_bufs h) d ;;
          let h := put_ctr h k (mkCtr (c_n r) true true) in
          Ok (set_arr (mkHeap (h_arrs h) (upd (h_bufs h) d (mkBuf (b_len b) BExt (b_alive b) (b_frees b))) (h_ctrs h))
                      s (Some (mkArr None 0 0 UNDEF (a_cnt a))))
      | OWN, None => (* never reached: owning objects have data *) UB
      | _, _ => Ok h
      end
  | ODestroy s =>
      a <- object h s ;;
      h <- dtor h a ;;
      Ok (set_arr h s None)
  end.

Definition aruns (l : list aop) (h : heap) : res heap := for_list l astep h.

(** Access to element [i] of an object ([operator[]], Array.hpp:295-305). *)
Definition aread (h : heap) (s i : nat) : res unit :=
  a <- object h s ;;
  match a_data a with
  | None => UB
  | Some d => b <- get (h_bufs h) d ;; if b_alive b && (i <? b_len b) then Ok tt else UB
  end.
