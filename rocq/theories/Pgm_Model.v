(** Model of /repo/vl/pgm.c (reading and writing PGM images) and of the byte
    swaps of /repo/vl/host.h.

    A file opened for reading is the list of its remaining bytes; a file opened
    for writing is the list of bytes written.  I/O failures of the operating
    system (fopen, fwrite) are not modelled; the float variants vl_pgm_read_new_f and
    vl_pgm_write_f are in PgmFloat_Model. *)
From Coq Require Import List NArith ZArith Arith Bool.
From Verif Require Import Base.
Import ListNotations.
Local Open Scope bool_scope.
Local Open Scope Z_scope.

(** Conversion to a 32-bit int and to vl_size. *)
Definition wrap_int (z : Z) : Z :=
  let r := z mod 2 ^ 32 in if r <? 2 ^ 31 then r else r - 2 ^ 32.
Definition wrap_size (z : Z) : Z := z mod 2 ^ 64.

(** VlPgmImage, /repo/vl/pgm.h:36-42 *)
Record pgm := mk_pgm { p_width : Z; p_height : Z; p_max : Z; p_raw : bool }.

(** Error codes, /repo/vl/pgm.h:23-26 and /repo/vl/generic.h:125 *)
Definition ERR_INV_HEAD := 101.
Definition ERR_INV_META := 102.
Definition ERR_INV_DATA := 103.
Definition ERR_BAD_ARG := 3.

(** remove_line, /repo/vl/pgm.c:51-72: rest of the file and number of characters removed. *)
Fixpoint remove_line (f : list Z) : list Z * nat :=
  match f with
  | [] => ([], 0%nat)
  | c :: f' => if c =? 10 then (f', 1%nat) else let (r, n) := remove_line f' in (r, S n)
  end.

(** remove_blanks, /repo/vl/pgm.c:80-110; [fuel] bounds the number of iterations,
    each of which consumes a character. *)
Fixpoint remove_blanks_loop (fuel : nat) (f : list Z) (count : nat) : option (list Z * nat) :=
  match fuel with
  | O => None
  | S fuel' =>
      match f with
      | [] => Some ([], count)
      | c :: f' =>
          if (c =? 9) || (c =? 10) || (c =? 13) || (c =? 32)
          then remove_blanks_loop fuel' f' (count + 1)
          else if c =? 35 then
            let (r, n) := remove_line f' in remove_blanks_loop fuel' r (count + 1 + n)
          else Some (f, count)
      end
  end.
Definition remove_blanks (f : list Z) : option (list Z * nat) :=
  remove_blanks_loop (S (length f)) f 0.

(** The C library [fscanf(f, "%d", &v)]: skip white space, optional sign,
    decimal digits; [None] when nothing was converted. *)
Definition is_space (c : Z) : bool := (c =? 32) || ((9 <=? c) && (c <=? 13)).
Definition is_digit (c : Z) : bool := (48 <=? c) && (c <=? 57).
Fixpoint skip_space (f : list Z) : list Z :=
  match f with c :: f' => if is_space c then skip_space f' else f | [] => [] end.
Fixpoint scan_digits (f : list Z) (acc : Z) : Z * list Z :=
  match f with
  | c :: f' => if is_digit c then scan_digits f' (acc * 10 + (c - 48)) else (acc, f)
  | [] => (acc, [])
  end.
Definition scan_unsigned (f : list Z) : option Z * list Z :=
  match f with
  | c :: _ => if is_digit c then let (v, r) := scan_digits f 0 in (Some v, r) else (None, f)
  | [] => (None, [])
  end.
Definition scan_number (f : list Z) : option Z * list Z :=
  match skip_space f with
  | 45 :: f' => let (v, r) := scan_unsigned f' in (option_map Z.opp v, r)
  | 43 :: f' => scan_unsigned f'
  | f' => scan_unsigned f'
  end.
(** A value out of range is undefined in C; the usual wrap-around is taken. *)
Definition scan_int (f : list Z) : option Z * list Z :=
  let (v, r) := scan_number f in (option_map wrap_int v, r).

(** vl_pgm_get_npixels and vl_pgm_get_bpp, /repo/vl/pgm.c:124-128, 139-143 *)
Definition npixels (im : pgm) : Z := wrap_size (p_width im * p_height im).
Definition bpp (im : pgm) : Z := (if 256 <=? p_max im then 1 else 0) + 1.

(** vl_pgm_extract_head, /repo/vl/pgm.c:160-246: error code, descriptor when the
    code is 0, and rest of the file. *)
Definition extract_head (f : list Z) : option (Z * option pgm * list Z) :=
  match f with
  | m0 :: m1 :: f =>
      if (m0 =? 80) && ((m1 =? 50) || (m1 =? 53)) then
        let is_raw := m1 =? 53 in
        do (f, c1) <- remove_blanks f;
        let (width, f) := scan_int f in
        do (f, c2) <- remove_blanks f;
        let (height, f) := scan_int f in
        do (f, c3) <- remove_blanks f;
        let (maxv, f) := scan_int f in
        let (blank, f) := match f with
                          | c :: f' => ((c =? 10) || (c =? 9) || (c =? 32) || (c =? 13), f')
                          | [] => (false, [])
                          end in
        if (0 <? c1)%nat && (0 <? c2)%nat && (0 <? c3)%nat && blank then
          match width, height, maxv with
          | Some w, Some h, Some m =>
              if negb (65536 <=? m) then Some (ERR_INV_META, None, f)
              else Some (0, Some (mk_pgm (wrap_size w) (wrap_size h) (wrap_size m) is_raw), f)
          | _, _, _ => Some (ERR_INV_META, None, f)
          end
        else Some (ERR_INV_META, None, f)
      else Some (ERR_INV_HEAD, None, f)
  | _ => Some (ERR_INV_HEAD, None, [])
  end.

(** Exchange of the two bytes of each pair, /repo/vl/pgm.c:287-296 and 355-361 *)
Fixpoint swap_pairs (d : list Z) : list Z :=
  match d with a :: b :: d' => b :: a :: swap_pairs d' | _ => d end.

(** ASCII pixels, /repo/vl/pgm.c:304-317: [n] values read by
    [fscanf(f, " %ud", &v)], which also consumes a 'd' after a number, each
    stored in [bpp] bytes (as the value modulo 256 or 65536). *)
Fixpoint extract_ascii (n : nat) (bpp : Z) (f : list Z) (acc : list Z) : Z * list Z * list Z :=
  match n with
  | O => (0, rev acc, f)
  | S n' =>
      match scan_number f with
      | (Some v, f1) =>
          let f2 := match f1 with 100 :: f' => f' | _ => f1 end in
          extract_ascii n' bpp f2 ((v mod 2 ^ (8 * bpp)) :: acc)
      | (None, f1) => (ERR_INV_DATA, rev acc, f1)
      end
  end.

(** vl_pgm_extract_data, /repo/vl/pgm.c:261-325: the error code, the bytes left in
    the buffer (raw mode; meaningful when the code is 0) or the pixel values
    (ASCII mode), and the rest of the file.  [le] is VL_ARCH_LITTLE_ENDIAN. *)
Definition extract_data (le : bool) (f : list Z) (im : pgm) : Z * list Z * list Z :=
  let n := npixels im in
  if p_raw im then
    let size := bpp im * n in
    if size <=? Z.of_nat (length f) then
      let d := firstn (Z.to_nat size) f in
      (0, (if le && (bpp im =? 2) then swap_pairs d else d), skipn (Z.to_nat size) f)
    else (ERR_INV_DATA, f, [])
  else extract_ascii (Z.to_nat n) (bpp im) f [].

(** The C library [fprintf("%d")]. *)
Fixpoint print_nat_loop (fuel : nat) (n : Z) (acc : list Z) : list Z :=
  match fuel with
  | O => acc
  | S fuel' =>
      let acc := (48 + n mod 10) :: acc in
      if n / 10 =? 0 then acc else print_nat_loop fuel' (n / 10) acc
  end.
Definition print_nat (n : Z) : list Z := print_nat_loop (S (Z.to_nat (Z.log2 n))) n [].
Definition print_int (n : Z) : list Z := if n <? 0 then 45 :: print_nat (- n) else print_nat n.

(** vl_pgm_insert, /repo/vl/pgm.c:335-375: the bytes written; [None] when [data] is
    shorter than the image. *)
Definition pgm_header (im : pgm) : list Z :=
  [80; 53; 10] ++ print_int (wrap_int (p_width im)) ++ [10] ++
  print_int (wrap_int (p_height im)) ++ [10] ++ print_int (wrap_int (p_max im)) ++ [10].
Definition insert (le : bool) (im : pgm) (data : list Z) : option (list Z) :=
  let size := bpp im * npixels im in
  if size <=? Z.of_nat (length data) then
    let d := firstn (Z.to_nat size) data in
    Some (pgm_header im ++ (if le && (bpp im =? 2) then swap_pairs d else d))
  else None.

(** vl_pgm_write, /repo/vl/pgm.c:479-500 *)
Definition pgm_write (le : bool) (data : list Z) (width height : Z) : option (list Z) :=
  insert le (mk_pgm (wrap_size width) (wrap_size height) 255 true) data.

(** vl_pgm_read_new, /repo/vl/pgm.c:393-423, on an existing file.  The branch for a
    data error frees a pointer that was not allocated and closes the file
    twice, which is [None]. *)
Definition pgm_read_new (le : bool) (f : list Z) : option (Z * option (pgm * list Z)) :=
  do (err, im, f1) <- extract_head f;
  match im with
  | None => Some (err, None)
  | Some im =>
      if 1 <? bpp im then Some (ERR_BAD_ARG, None)
      else
        let '(err, data, _) := extract_data le f1 im in
        if err =? 0 then Some (0, Some (im, data)) else None
  end.

(** vl_swap_host_big_endianness_8, _4 and _2, /repo/vl/host.h:587-659, as byte
    assignments in order within one memory [m]; [dst] and [src] are offsets.
    [big] is VL_ARCH_BIG_ENDIAN. *)
Fixpoint byte_moves (n i : nat) (m : list Z) (dst src : nat) (from : nat -> nat) : option (list Z) :=
  match n with
  | O => Some m
  | S n' =>
      do x <- aget m (src + from i);
      do m1 <- aset m (dst + i) x;
      byte_moves n' (i + 1) m1 dst src from
  end.
Definition swap_endianness (size : nat) (big : bool) (m : list Z) (dst src : nat) : option (list Z) :=
  byte_moves size 0 m dst src (fun i => if big then i else (size - 1 - i)%nat).
Definition swap_endianness_8 := swap_endianness 8.
Definition swap_endianness_4 := swap_endianness 4.
Definition swap_endianness_2 := swap_endianness 2.
