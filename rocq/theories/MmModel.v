(** * MmModel: MatrixMarket files.

    Models src/hif/utils/io.hpp:545-943 (the readers and writers of MatrixMarket files)
    and [read_mm]/[write_mm] of src/hif/ds/CompressedStorage.hpp:1566-1582, 2474-2490.

    A file is its list of lines (without the line ends).  Simplifications:
    - lines longer than 1023 characters ([fgets] would split them) and words longer than 64
      characters in the first line (they overflow fixed arrays) are not represented;
    - [%d] is matched against a whole word: a word such as [1.5] is a failed
      match here, while C reads [1] and leaves [.5]; values of type [int] do not overflow;
    - the text form of floating point numbers is a parameter: [num_of] is [%lg] and
      [num_str] is [operator<<];
    - a negative size is [UB] (C++ asks for 2^64 entries); opening a file never fails. *)
From Coq Require Import List Arith Bool ZArith String Ascii DecimalString Decimal.
From Verif Require Import Base Scalar CSModel ConvModel.
Import ListNotations.
Local Open Scope string_scope.

Definition word : Type := string.

(** White space of [scanf]. *)
Definition is_ws (c : ascii) : bool :=
  match nat_of_ascii c with 32 | 9 | 10 | 11 | 12 | 13 => true | _ => false end.

(** The white-space separated words of a line. *)
Fixpoint words (s : string) : list word :=
  match s with
  | EmptyString => []
  | String c s' =>
    if is_ws c then words s'
    else match s' with
         | EmptyString => [String c EmptyString]
         | String d _ =>
           if is_ws d then String c EmptyString :: words s'
           else match words s' with w :: t => String c w :: t | [] => [] end
         end
  end.

(** [std::tolower] on every character, io.hpp:645-648. *)
Definition lower_char (c : ascii) : ascii :=
  let n := nat_of_ascii c in if ((65 <=? n) && (n <=? 90))%nat then ascii_of_nat (n + 32) else c.
Fixpoint to_lower (s : string) : string :=
  match s with EmptyString => EmptyString | String c t => String (lower_char c) (to_lower t) end.

(** [%d] on a word: optional sign and decimal digits. *)
Definition int_of (w : word) : option Z :=
  match w with
  | String "+" r => option_map (fun u => Z.of_int (Pos u)) (NilZero.uint_of_string r)
  | _ => option_map Z.of_int (NilZero.int_of_string w)
  end.
(** [operator<<] of an index. *)
Definition dec (n : nat) : string := NilZero.string_of_uint (N.to_uint (N.of_nat n)).

(** Up to [k] conversions [%d]: the values read and the words left.  The number of values
    is what [scanf] returns, except that it returns [EOF] when there is no word. *)
Fixpoint scan_ints (k : nat) (ws : list word) : list Z * list word :=
  match k with
  | 0 => ([], ws)
  | S k' =>
    match ws with
    | [] => ([], [])
    | w :: t => match int_of w with
                | None => ([], ws)
                | Some z => let (l, r) := scan_ints k' t in (z :: l, r)
                end
    end
  end.

(** Kinds of files: [type_id], io.hpp:672-684. *)
Inductive kind : Type := GENERAL | SYMM | HERM | SKEW.
Definition is_general (k : kind) : bool := match k with GENERAL => true | _ => false end.

(** [mm_read_firstline], io.hpp:620-685: sparse or array, real or complex, kind. *)
Definition mm_read_firstline (lines : list string) : res (bool * bool * kind * list string) :=
  match lines with
  | [] => Err
  | l :: rest =>
    match words l with
    | banner :: mtx :: crd :: dtype :: scheme :: _ =>
      if negb (banner =? "%%MatrixMarket") then Err
      else if negb (to_lower mtx =? "matrix") then Err
      else
        let crd := to_lower crd in
        let dtype := to_lower dtype in
        let scheme := to_lower scheme in
        if negb (crd =? "coordinate") && negb (crd =? "array") then Err
        else if negb (dtype =? "real") && negb (dtype =? "complex") then Err
        else
          let ok k := Ok (negb (crd =? "array"), negb (dtype =? "complex"), k, rest) in
          if scheme =? "general" then ok GENERAL
          else if scheme =? "symmetric" then ok SYMM
          else if scheme =? "hermitian" then ok HERM
          else if scheme =? "skew-symmetric" then ok SKEW
          else Err
    | _ => Err
    end
  end.

Definition is_comment (l : string) : bool :=
  match l with String c _ => if Ascii.eqb c "%" then true else false | EmptyString => false end.

(** The [fscanf] loops io.hpp:711-717 and 746-752.  A loop that is still running after
    [fuel] rounds is [None]. *)
Fixpoint size_loop (k fuel : nat) (ws : list word) : option (res (list Z * list word)) :=
  match fuel with
  | 0 => None
  | S fuel' =>
    match ws with
    | [] => Some Err
    | _ => let (l, r) := scan_ints k ws in
           if (List.length l =? k)%nat then Some (Ok (l, r)) else size_loop k fuel' r
    end
  end.

(** [mm_read_sparse_size] ([k] = 3), io.hpp:688-721, and [mm_read_dense_size] ([k] = 2),
    723-756: the numbers and the words of the rest of the file. *)
Fixpoint mm_read_size (k fuel : nat) (lines : list string) : option (res (list Z * list word)) :=
  match lines with
  | [] => Some Err
  | l :: t =>
    if is_comment l then mm_read_size k fuel t
    else
      let (z, _) := scan_ints k (words l) in
      if (List.length z =? k)%nat then Some (Ok (z, flat_map words t))
      else size_loop k fuel (flat_map words t)
  end.

(** A signed index or size used as an unsigned one. *)
Definition to_nat (z : Z) : res nat := if (z <? 0)%Z then UB else Ok (Z.to_nat z).
Fixpoint to_nats (l : list Z) : res (list nat) :=
  match l with
  | [] => Ok []
  | z :: t => x <- to_nat z ;; y <- to_nats t ;; Ok (x :: y)
  end.

Section Mm.
  Variable O : Ops.
  Notation T := (T O).
  (** Floating point numbers as read and written. *)
  Variable R : Type.
  Variable num_of : word -> option R.
  Variable num_str : R -> string.
  (** The value type: [std::is_floating_point] or complex, with its parts. *)
  Variable isR : bool.
  Variable mk : R -> R -> T.          (* set_real, set_imag: io.hpp:514-538 *)
  Variable re im : T -> R.
  Variable r0 : R.                    (* stands for the unread imaginary part *)

  Fixpoint scan_nums (k : nat) (ws : list word) : list R * list word :=
    match k with
    | 0 => ([], ws)
    | S k' =>
      match ws with
      | [] => ([], [])
      | w :: t => match num_of w with
                  | None => ([], ws)
                  | Some z => let (l, r) := scan_nums k' t in (z :: l, r)
                  end
      end
    end.

  (** The value conversions of one entry: io.hpp:571-574, 609-611. *)
  Definition scan_value (real : bool) (ws : list word) : res (T * list word) :=
    let (l, r) := scan_nums (if real then 1 else 2) ws in
    match l, real with
    | [vr], true => Ok (mk vr r0, r)
    | [vr; vi], false => Ok (mk vr vi, r)
    | _, _ => Err
    end.

  (** The value at the mirrored position, io.hpp:587-592. *)
  Definition mirror (k : kind) (v : T) : T :=
    match k with
    | SYMM => v
    | HERM => tconj O v
    | _ => topp O v
    end.

  (** Words left, [index] and the three arrays. *)
  Definition rstate : Type := (list word * nat * list Z * list Z * list T)%type.

  (** One round of the loop io.hpp:570-594. *)
  Definition read_entry (k : kind) (real : bool) (s : rstate) : res rstate :=
    let '(ws, index, rows, cols, vals) := s in
    match scan_ints 2 ws with
    | ([r; c], ws) =>
      '(v, ws) <- scan_value real ws ;;
      rows <- set rows index (r - 1)%Z ;;
      cols <- set cols index (c - 1)%Z ;;
      vals <- set vals index v ;;
      let index := S index in
      if is_general k || (r =? c)%Z then Ok (ws, index, rows, cols, vals)
      else
        rows <- set rows index (c - 1)%Z ;;
        cols <- set cols index (r - 1)%Z ;;
        u <- get vals (index - 1) ;;
        vals <- set vals index (mirror k u) ;;
        Ok (ws, S index, rows, cols, vals)
    | _ => Err
    end.

  (** [mm_read_sparse_data<TypeID, IsReal>], io.hpp:547-600: the three arrays.  [jz jv] is
      what fresh memory holds; shrinking keeps the front of an array. *)
  Definition mm_read_sparse_data (jz : Z) (jv : T) (k : kind) (real : bool) (ws : list word) (nnz : nat)
    : res (list Z * list Z * list T) :=
    let z := if is_general k then nnz else nnz * 2 in
    '(_, index, rows, cols, vals) <-
      for_range 0 nnz (fun _ s => read_entry k real s) (ws, 0, repeat jz z, repeat jz z, repeat jv z) ;;
    if negb (index =? nnz)%nat then Ok (firstn index rows, firstn index cols, firstn index vals)
    else Ok (rows, cols, vals).

  (** [read_mm_sparse], io.hpp:782-824. *)
  Definition read_mm_sparse (jz : Z) (jv : T) (fuel : nat) (file : list string)
    : option (res (nat * nat * list Z * list Z * list T)) :=
    match mm_read_firstline file with
    | Err => Some Err
    | UB => Some UB
    | Ok (is_sparse, is_real, k, rest) =>
      if negb is_sparse then Some Err
      else if xorb isR is_real then Some Err
      else
        match mm_read_size 3 fuel rest with
        | None => None
        | Some r => Some (
          '(sz, ws) <- r ;;
          match sz with
          | [m; n; nz] =>
            m <- to_nat m ;; n <- to_nat n ;; nz <- to_nat nz ;;
            '(rows, cols, vals) <- mm_read_sparse_data jz jv k is_real ws nz ;;
            Ok (m, n, rows, cols, vals)
          | _ => Err
          end)
        end
    end.

  (** [CRS::read_mm], CompressedStorage.hpp:1566-1575 ([rm] = true), and [CCS::read_mm],
      2474-2483 ([rm] = false). *)
  Definition read_mm (rm : bool) (ji : nat) (jz : Z) (jv : T) (fuel : nat) (file : list string) : option (res (CS O)) :=
    match read_mm_sparse jz jv fuel file with
    | None => None
    | Some r => Some (
      '(m, n, rows, cols, vals) <- r ;;
      rows <- to_nats rows ;;
      cols <- to_nats cols ;;
      if rm then convert_coo2cs O ji jv m n rows cols vals
      else convert_coo2cs O ji jv n m cols rows vals)
    end.

  Definition TAB : string := String (ascii_of_nat 9) EmptyString.
  Definition version : string := "% Written by HIFIR 0.1.0".
  Definition dtype : string := if isR then "real" else "complex".

  (** One number or complex number: io.hpp:936-937, 887-888. *)
  Definition value_str (v : T) : string := num_str (re v) ++ (if isR then "" else TAB ++ num_str (im v)).

  (** [write_mm_sparse<rm>], io.hpp:906-943, called by [write_mm],
      CompressedStorage.hpp:1580-1582 and 2488-2490. *)
  Definition write_mm (rm : bool) (A : CS O) : res (list string) :=
    match ind_start A with
    | [] => Err
    | _ =>
      let prim := List.length (ind_start A) - 1 in
      let sz := (if rm then dec prim ++ " " ++ dec (ssize A) else dec (ssize A) ++ " " ++ dec prim) in
      body <- for_range 0 prim (fun i out =>
        b <- get (ind_start A) i ;; e <- get (ind_start A) (S i) ;;
        for_range b e (fun k out =>
          j <- get (indices A) k ;; v <- get (vals A) k ;;
          let r := dec (S i) in let c := dec (S j) in
          Ok (out ++ [((if rm then r else c) ++ TAB ++ (if rm then c else r) ++ TAB ++ value_str v)%string])%list) out) [] ;;
      Ok (("%%MatrixMarket matrix coordinate " ++ dtype ++ " general") :: version ::
          (" " ++ sz ++ " " ++ dec (List.length (vals A))) :: body)
    end.

  (** [mm_read_vector_data], io.hpp:603-617. *)
  Definition mm_read_vector_data (jv : T) (real : bool) (ws : list word) (n : nat) : res (list T) :=
    '(_, v) <- for_range 0 n (fun i (s : list word * list T) =>
       let '(ws, v) := s in
       '(x, ws) <- scan_value real ws ;;
       v <- set v i x ;;
       Ok (ws, v)) (ws, repeat jv n) ;;
    Ok v.

  (** [read_mm_vector], io.hpp:833-859. *)
  Definition read_mm_vector (jv : T) (fuel : nat) (file : list string) : option (res (list T)) :=
    match mm_read_firstline file with
    | Err => Some Err
    | UB => Some UB
    | Ok (is_sparse, is_real, _, rest) =>
      if is_sparse then Some Err
      else if xorb isR is_real then Some Err
      else
        match mm_read_size 2 fuel rest with
        | None => None
        | Some r => Some (
          '(sz, ws) <- r ;;
          match sz with
          | [m; _] => m <- to_nat m ;; mm_read_vector_data jv is_real ws m
          | _ => Err
          end)
        end
    end.

  (** [write_mm_vector], io.hpp:864-892. *)
  Definition write_mm_vector (v : list T) : list string :=
    ("%%MatrixMarket matrix array " ++ dtype ++ " general") :: version ::
    (" " ++ dec (List.length v) ++ " 1") :: map value_str v.
End Mm.
