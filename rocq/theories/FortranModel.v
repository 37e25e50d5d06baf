(** Model of the reader of Fortran records (utils/io/FortranBinaryReader.h) on a little-endian
    machine. A stream is the list of bytes that remain; a value is the unsigned number with the same
    bytes in memory. *)
From Verif Require Import Base HydroModel.
Open Scope Z_scope.

(** The [n] bytes of a number in memory, and back. *)
Fixpoint in_memory (n : nat) (v : Z) : list Z := match n with O => [] | S k => v mod 256 :: in_memory k (v / 256) end.
Fixpoint from_memory (l : list Z) : Z := match l with [] => 0 | x :: r => x + 256 * from_memory r end.
(** int32_t, size_t *)
Definition int32 (v : Z) : Z := if v <? 2 ^ 31 then v else v - 2 ^ 32.
Definition to_size_t (v : Z) : Z := v mod 2 ^ 64.
(** l.8-20, endian_swap of a type of [n] bytes. *)
Definition endian_swap (n : nat) (v : Z) : Z := from_memory (rev (in_memory n v)).
Definition swap_tag (v : Z) : Z := int32 (endian_swap 4 (v mod 2 ^ 32)).
(** istr.read: None if the stream is too short (the variable keeps an undefined value). *)
Definition read_bytes (n : nat) (s : list Z) : option (list Z * list Z) :=
  if (length s <? n)%nat then None else Some (firstn n s, skipn n s).
Fixpoint elements (n count : nat) (l : list Z) : list Z :=
  match count with O => [] | S k => from_memory (firstn n l) :: elements n k (skipn n l) end.
(** l.33-67, read_record of [count] values of [n] bytes. [byteswap]: the static flag _byteswap
    (l.28). Result: values, flag, rest of the stream. *)
Definition read_record (byteswap : bool) (n count : nat) (s : list Z) : option (list Z * bool * list Z) :=
  do r <- read_bytes 4 s ;
  let begin_tag := int32 (from_memory (fst r)) in
  let record_size := if byteswap then swap_tag begin_tag else begin_tag in
  let required := Z.of_nat (count * n) in
  if record_size <? 0 then None
  else
    do flag <- (if to_size_t record_size =? required then Some byteswap
                else if to_size_t (swap_tag record_size) =? required then Some (negb byteswap) else None) ;
    do d <- read_bytes (count * n) (snd r) ;
    let buffer := elements n count (fst d) in
    let buffer := if flag : bool then map (endian_swap n) buffer else buffer in
    do e <- read_bytes 4 (snd d) ;
    if begin_tag =? int32 (from_memory (fst e)) then Some (buffer, flag, snd e) else None.
(** Several records one after the other: sizes and numbers of values. *)
Fixpoint read_records (byteswap : bool) (wanted : list (nat * nat)) (s : list Z) : option (list (list Z) * bool * list Z) :=
  match wanted with
  | [] => Some ([], byteswap, s)
  | (n, count) :: w =>
    do r <- read_record byteswap n count s ;
    let '(vs, flag, rest) := r in
    do q <- read_records flag w rest ;
    let '(vss, flag', rest') := q in Some (vs :: vss, flag', rest')
  end.
(** init/InitialConditions_grafic_fields.cpp:12-19, 40-46, 117, 140: the header of a file, a
    structure of 11 fields of 4 bytes, is read as one value of 44 bytes. *)
Definition header_fields : nat := 11.
Definition read_header (byteswap : bool) (s : list Z) : option (list Z * bool * list Z) :=
  do r <- read_record byteswap (header_fields * 4) 1 s ;
  let '(vs, flag, rest) := r in
  Some (elements 4 header_fields (in_memory (header_fields * 4) (hd 0 vs)), flag, rest).
