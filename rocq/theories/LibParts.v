(** Parts of byte buffers. *)
From Coq Require Import ZArith List Bool Lia.
From Verif Require Import Ints LibModel LibSpec LibProofs LibProofs2 LibArgs.
Import ListNotations.
Open Scope Z_scope.

Lemma buffer_parts cap ps : 0 < cap <= big -> Forall piece_ok ps -> 2 * fold_right Z.add 0 (map piece_len ps) <= big ->
  exists b b', new_buffer cap = Val b /\ buf_pieces b ps = Val b' /\
    (forall pre r post, contents ps = pre ++ r ++ post -> buf_substring b' (len pre) (len r) = Val r) /\
    (forall pos n, is_int (pos + n) -> ~ (0 <= pos /\ 0 <= n /\ pos + n <= len (contents ps)) -> buf_substring b' pos n = Panic).
Proof.
  intros Hc Hok Hb. destruct (new_buffer_spec cap) as (b & E & Hh & L); [lia|].
  destruct (buf_pieces_spec ps b []) as (b' & E' & Hh' & L'); auto; try lia; rewrite ?len_nil; auto.
  exists b, b'. split; [exact E|]. split; [exact E'|]. split.
  - intros pre r post Ec. eapply (buf_substring_spec (fun _ => 0)); [intros; lia|exact Hh'|lia|exact Ec|reflexivity|reflexivity].
  - intros pos n Hi Hn. unfold buf_substring. destruct (Z.ltb_spec pos 0); [reflexivity|]. destruct (Z.ltb_spec n 0); [reflexivity|]. cbn [orb].
    rewrite iadd_id by exact Hi. rewrite (h_size _ _ Hh'). change (fold_left add_piece ps []) with (contents ps).
    destruct (pos + n >? len (contents ps)) eqn:G; [reflexivity|]. exfalso. apply Hn. rewrite Z.gtb_ltb in G. apply Z.ltb_ge in G. lia.
Qed.
