(** What a formatted text looks like, in terms of the calls made on the builder. *)
From Verif Require Export Formatter.

(** [prev]: stickiness of the previous token ([None] at the start of the output); [brk]: a newline has
    been written since.  Before a token come either indentation (after a newline), or nothing (start of
    output, or one of the two neighbours is sticky), or one space. *)
Inductive separator : option sticky -> bool -> sticky -> text -> Prop :=
| sep_indent prev s k : separator prev true s (repeat sp (4 * k))
| sep_start s : separator None false s []
| sep_stick s0 s : to_next s0 = true \/ to_prev s = true -> separator (Some s0) false s []
| sep_space s0 s : to_next s0 = false -> to_prev s = false -> separator (Some s0) false s [sp].

(** [laid prev brk cs out]: [out] is a correct layout of the calls [cs]. *)
Inductive laid : option sticky -> bool -> list call -> text -> Prop :=
| laid_nil prev brk : laid prev brk [] []
| laid_token prev brk t cs sep out :
    separator prev brk NoStick sep -> laid (Some NoStick) false cs out ->
    laid prev brk (AddToken t :: cs) (sep ++ t ++ out)
| laid_sticky prev brk t s cs sep out :
    separator prev brk s sep -> laid (Some s) false cs out ->
    laid prev brk (AddSticky t s :: cs) (sep ++ t ++ out)
(* a newline is written at most once between two tokens and never at the start *)
| laid_newline s0 cs out :
    laid (Some s0) true cs out -> laid (Some s0) false (AddNewline :: cs) (nl :: out)
| laid_newline_again prev brk cs out :
    prev = None \/ brk = true -> laid prev brk cs out -> laid prev brk (AddNewline :: cs) out
| laid_ws_newline prev brk ws cs out :
    In nl ws -> laid prev brk (AddNewline :: cs) out -> laid prev brk (AddWhitespace ws :: cs) out
| laid_ws prev brk ws cs out :
    ~ In nl ws -> laid prev brk cs out -> laid prev brk (AddWhitespace ws :: cs) out
(* a large newline is a newline or nothing *)
| laid_large prev brk cs out :
    laid prev brk (AddNewline :: cs) out -> laid prev brk (AddLargeNewline :: cs) out
| laid_large_skip prev brk cs out :
    laid prev brk cs out -> laid prev brk (AddLargeNewline :: cs) out
| laid_start prev brk l i cs out : laid prev brk cs out -> laid prev brk (StartNode l i :: cs) out
| laid_finish prev brk cs out : laid prev brk cs out -> laid prev brk (FinishNode :: cs) out.

(** The token texts, in the order they were added. *)
Definition call_tokens (cs : list call) : list text :=
  flat_map (fun c => match c with AddToken t => [t] | AddSticky t _ => [t] | _ => [] end) cs.
