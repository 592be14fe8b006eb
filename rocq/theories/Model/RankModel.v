(* Model of kaminpar-common/datastructures/bitvector_rank.h, RankCombinedBitVector<512, 14> (the only instantiation).
   Words are integers below 2^64 in lists; an access outside of a list returns [None]. Counts never reach 2^64, so
   their additions are not wrapped. *)
From Verif Require Import Lib.Prelude Spec.BitVec.
Local Open Scope Z_scope.

(** :30-42 the constants. *)
Definition kWordWidth : Z := 64.
Definition kBlockWidth : Z := 512.
Definition kBlockHeaderWidth : Z := 14.
Definition kBlockDataWidth : Z := kBlockWidth - kBlockHeaderWidth.
Definition kHeaderDataWidth : Z := kWordWidth - kBlockHeaderWidth.
Definition kNumWordsPerBlock : Z := kBlockWidth / kWordWidth.
Definition kSuperblockWidth : Z := 2 ^ kBlockHeaderWidth.
Definition kNumBlocksPerSuperblock : Z := kSuperblockWidth / kBlockWidth.
Definition kNumWordsPerSuperblock : Z := kSuperblockWidth / kWordWidth.
Definition kSuperblockDataWidth : Z := kSuperblockWidth - kNumBlocksPerSuperblock * kBlockHeaderWidth.

Definition w64 (x : Z) : Z := x mod 2 ^ 64.
(** std::popcount of a 64-bit word. *)
Definition popcount (x : Z) : Z := sumn 64 (fun i => Z.b2z (Z.testbit x (Z.of_nat i))).
(** A left shift by 64 or more is undefined behaviour; [junk] is the value it happens to deliver. *)
Definition shl64 (junk x s : Z) : Z := if s <? 64 then w64 (Z.shiftl x s) else junk.
(** :57-67 setbits. *)
Definition setbits (num start : Z) : Z :=
  if num =? 0 then 0 else w64 (Z.shiftl (Z.shiftr (2 ^ 64 - 1) (64 - num)) start).
(** math::div_ceil. *)
Definition rdiv_ceil (a b : Z) : Z := (a + b - 1) / b.

Definition rd (l : list Z) (i : Z) : option Z := if (0 <=? i) then nth_error l (Z.to_nat i) else None.
Definition wr (l : list Z) (i x : Z) : option (list Z) :=
  if (0 <=? i) && (i <? Z.of_nat (length l)) then Some (upd (Z.to_nat i) x l) else None.

(** :260-266 the members. *)
Record rbv := { rb_len : Z; rb_blocks : Z; rb_data : list Z; rb_super : list Z }.

(** :83-97 construction: the contents are unspecified ([d], [s]), except that the last block is zeroed. *)
Definition rb_init (len : Z) (d s : list Z) : rbv :=
  let nb := rdiv_ceil len kBlockDataWidth in
  {| rb_len := len; rb_blocks := nb;
     rb_data := firstn (Z.to_nat ((nb - 1) * kNumWordsPerBlock)) d ++
                repeat 0 (length d - Z.to_nat ((nb - 1) * kNumWordsPerBlock));
     rb_super := s |}.
(** :105-108 construction with all bits set or unset. *)
Definition rb_init_all (len : Z) (set : bool) (s : list Z) : rbv :=
  let nb := rdiv_ceil len kBlockDataWidth in
  {| rb_len := len; rb_blocks := nb;
     rb_data := repeat (if set then 2 ^ 64 - 1 else 0) (Z.to_nat (nb * kNumWordsPerBlock)); rb_super := s |}.

(** :122-126, :137-141, :153-157, :172-176 the word and the bit of a position. *)
Definition rb_word (pos : Z) : Z :=
  pos / kBlockDataWidth * kNumWordsPerBlock + (pos mod kBlockDataWidth + kBlockHeaderWidth) / kWordWidth.
Definition rb_bit (pos : Z) : Z := (pos mod kBlockDataWidth + kBlockHeaderWidth) mod kWordWidth.

Definition with_data (v : rbv) (d : option (list Z)) : option rbv :=
  match d with
  | None => None
  | Some d => Some {| rb_len := rb_len v; rb_blocks := rb_blocks v; rb_data := d; rb_super := rb_super v |}
  end.
Definition upd_word (v : rbv) (pos : Z) (f : Z -> Z) : option rbv :=
  match rd (rb_data v) (rb_word pos) with
  | None => None
  | Some x => with_data v (wr (rb_data v) (rb_word pos) (f x))
  end.
(** Bitwise complement of a 64-bit word. *)
Definition not64 (x : Z) : Z := w64 (Z.lnot x).
(** :121-129 unset, :136-144 set, :152-163 set(pos, value). *)
Definition rb_unset (pos : Z) (v : rbv) : option rbv :=
  upd_word v pos (fun x => Z.land x (not64 (Z.shiftl 1 (rb_bit pos)))).
Definition rb_set (pos : Z) (v : rbv) : option rbv :=
  upd_word v pos (fun x => Z.lor x (Z.shiftl 1 (rb_bit pos))).
Definition rb_setv (pos : Z) (value : bool) (v : rbv) : option rbv :=
  upd_word v pos (fun x => let mask := Z.shiftl 1 (rb_bit pos) in
    Z.lor (Z.land x (not64 mask)) (Z.land (w64 (- Z.b2z value)) mask)).
(** :171-183 is_set. *)
Definition rb_is_set (pos : Z) (v : rbv) : option bool :=
  match rd (rb_data v) (rb_word pos) with
  | None => None
  | Some x => Some (Z.land (Z.shiftr x (rb_bit pos)) 1 =? 1)
  end.

(** :44-52 block_popcount of the block that starts at word [i]. *)
Fixpoint popcounts (cnt : nat) (d : list Z) (i : Z) : option Z :=
  match cnt with
  | O => Some 0
  | S c => match rd d i, popcounts c d (i + 1) with Some x, Some y => Some (popcount x + y) | _, _ => None end
  end.
Definition block_popcount (d : list Z) (i : Z) : option Z :=
  match rd d i, popcounts (Z.to_nat (kNumWordsPerBlock - 1)) d (i + 1) with
  | Some x, Some y => Some (popcount (Z.shiftr x kBlockHeaderWidth) + y)
  | _, _ => None
  end.

(** :189-210 update. The loop counter i is block * kNumWordsPerBlock. State: data, superblock data, cur_rank,
    cur_block_rank, cur_num_super_block. *)
Definition upd_state := (list Z * list Z * Z * Z * Z)%type.
Definition rb_update_step (st : option upd_state) (blk : nat) : option upd_state :=
  match st with
  | None => None
  | Some (d, s, cr, cbr, ns) =>
      let i := Z.of_nat blk * kNumWordsPerBlock in
      match (if i mod kNumWordsPerSuperblock =? 0
             then match wr s ns (cr + cbr) with None => None | Some s' => Some (s', cr + cbr, 0, ns + 1) end
             else Some (s, cr, cbr, ns)) with
      | None => None
      | Some (s', cr', cbr', ns') =>
          match rd d i with
          | None => None
          | Some x =>
              match wr d i (Z.lor (Z.land x (setbits kHeaderDataWidth kBlockHeaderWidth)) cbr') with
              | None => None
              | Some d' => match block_popcount d' i with
                           | None => None
                           | Some c => Some (d', s', cr', cbr' + c, ns')
                           end
              end
          end
      end
  end.
Definition rb_update (v : rbv) : option rbv :=
  match fold_left rb_update_step (seq 0 (Z.to_nat (rb_blocks v))) (Some (rb_data v, rb_super v, 0, 0, 0)) with
  | None => None
  | Some (d, s, _, _, _) => Some {| rb_len := rb_len v; rb_blocks := rb_blocks v; rb_data := d; rb_super := s |}
  end.

(** :218-251 rank. *)
Definition rb_rank (junk : Z) (pos : Z) (v : rbv) : option Z :=
  let num_block := pos / kBlockDataWidth in
  let block_pos := pos mod kBlockDataWidth + kBlockHeaderWidth in
  let num_word := block_pos / kWordWidth in
  let word_pos := block_pos mod kWordWidth in
  let base := num_block * kNumWordsPerBlock in
  match rd (rb_super v) (pos / kSuperblockDataWidth), rd (rb_data v) base with
  | Some sr, Some first =>
      let rank := sr + Z.land first (setbits kBlockHeaderWidth 0) in
      if num_word =? 0 then
        let shift := (kWordWidth + kBlockHeaderWidth) - word_pos in
        Some (rank + popcount (shl64 junk (Z.shiftr first kBlockHeaderWidth) shift) *
                     Z.b2z (negb (word_pos =? kBlockHeaderWidth)))
      else
        match popcounts (Z.to_nat (num_word - 1)) (rb_data v) (base + 1), rd (rb_data v) (base + num_word) with
        | Some mid, Some lst =>
            Some (rank + popcount (Z.shiftr first kBlockHeaderWidth) + mid +
                  popcount (shl64 junk lst (kWordWidth - word_pos)) * Z.b2z (negb (word_pos =? 0)))
        | _, _ => None
        end
  | _, _ => None
  end.

Definition rb_step (v : rbv) (o : rbop) : option rbv :=
  match o with
  | RSet p => rb_set (Z.of_nat p) v
  | RUnset p => rb_unset (Z.of_nat p) v
  | RSetTo p x => rb_setv (Z.of_nat p) x v
  | RUpdate => rb_update v
  end.
Fixpoint rb_run (ops : list rbop) (v : rbv) : option rbv :=
  match ops with
  | [] => Some v
  | o :: t => match rb_step v o with None => None | Some v' => rb_run t v' end
  end.

(** :83-108 the vectors of length [n] delivered by the two constructors. *)
Inductive built (n : nat) : rbv -> Prop :=
| built_raw : forall d s, Z.of_nat (length d) = 8 * rdiv_ceil (Z.of_nat n) 498 ->
    Z.of_nat (length s) = rdiv_ceil (Z.of_nat n) 15936 -> (forall i, 0 <= nth i d 0 < 2 ^ 64) -> built n (rb_init (Z.of_nat n) d s)
| built_all : forall x s, Z.of_nat (length s) = rdiv_ceil (Z.of_nat n) 15936 -> built n (rb_init_all (Z.of_nat n) x s).
