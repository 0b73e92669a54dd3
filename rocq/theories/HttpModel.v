(** Model of lib/ev/HTTP.fu: request parsing, response writing, the output buffer.  Bytes are Z.
    Simplifications: sockets, pools and the event loop are outside (Pool: C16); one connection.  Range swaps with a
    fresh string (316-325, 338-340) are written as cuts: SwapModel.v, C49.  Ints are unbounded (buffers below 2^31). *)
From Verif Require Export PreludeModel DecModel.
From Coq Require Export String Ascii.
Open Scope nat_scope.

Definition bytes (s : string) : list Z := map (fun c => Z.of_nat (nat_of_ascii c)) (list_ascii_of_string s).
Definition CRLF : list Z := [13; 10]%Z.
Definition SP : Z := 32%Z.

(** HTTP.fu:2-4 *)
Definition MIN_HEAD_PACKET : nat := 1 * 1024.
Definition MAX_START_LINE : nat := 4 * 1024.
Definition MAX_HEADERS : nat := 64 * 1024.

(** HTTP.fu:29-33; 0 is "not found yet" *)
Record rbuf := { rb_data : list Z; rb_hs : nat; rb_he : nat }.
Inductive outcome :=
| Incomplete                             (* false, without fatal *)
| Fatal (status : list Z)                (* false, with fatal set *)
| Done (url headers : list Z).           (* true; the method is GET *)

(** find(needle, :start, :end): the slice clamps start to end (release build; view.h:295-313) *)
Definition find_in (h n : list Z) (start end_ : nat) : option (option nat) :=
  find_window Z.eqb h n (Nat.min start end_) end_.

(** HTTP.fu:199-235 START_LINE: (headers_start, None) or a fatal status *)
Definition start_line (b : rbuf) (data0 : nat) : option (nat * option (list Z)) :=
  if negb (rb_hs b =? 0) then Some (rb_hs b, None) else
  let start := data0 - 1 in
  let end_ := Nat.min (List.length (rb_data b)) MAX_START_LINE in
  do first_crlf <- find_in (rb_data b) CRLF start end_;
  match first_crlf with
  | Some k => Some (k, None)
  | None =>
      if end_ <=? List.length (rb_data b) then Some (rb_hs b, Some (bytes "414 Request-URI Too Long"))
      else if rb_hs b <? 16 then Some (rb_hs b, Some (bytes "400 Request Line Too Short"))
      else Some (rb_hs b, None)
  end.

(** HTTP.fu:239-277 HEADERS: (headers_end, None) or a fatal status; 0 when it is still open *)
Definition headers_part (b : rbuf) (hs data0 bytes_read : nat) : option (nat * option (list Z)) :=
  if negb (rb_he b =? 0) then Some (rb_he b, None) else
  let start := Nat.max (data0 - 3) hs in
  let end_ := Nat.min (List.length (rb_data b)) (hs + MAX_HEADERS) in
  do first_crlf_pair <- find_in (rb_data b) (CRLF ++ CRLF) start end_;
  match first_crlf_pair with
  | Some k => Some (k + 4, None)
  | None =>
      if end_ <=? List.length (rb_data b) then Some (rb_he b, Some (bytes "431 Request Header Fields Too Large"))
      else if bytes_read <? MIN_HEAD_PACKET then Some (rb_he b, Some (bytes "418 Packet Too Small"))
      else Some (rb_he b, None)
  end.

Definition beq (a b : list Z) : bool := if list_eq_dec Z.eq_dec a b then true else false.

(** HTTP.fu:327-357: the request line *)
Definition request_line (first_line headers : list Z) : outcome :=
  match find_item Z.eqb first_line SP with
  | None => Fatal (bytes "400 Invalid Request Method")
  | Some space0 =>
      if space0 <? 3 then Fatal (bytes "400 Invalid Request Method") else
      match find_item Z.eqb (skipn (space0 + 1) first_line) SP with
      | None => Fatal (bytes "400 Missing HTTP Version")
      | Some k =>
          let space1 := k + (space0 + 1) in
          let version := skipn (space1 + 1) first_line in
          let first_line := firstn (space1 + 1) first_line in
          let url := sub_list (space0 + 1) space1 first_line in
          let method := firstn space0 first_line in
          if negb (beq version (bytes "HTTP/1.1")) then Fatal (bytes "406 Invalid HTTP Version")
          else if negb (beq method (bytes "GET")) then Fatal (bytes "405 Method Not Allowed")
          else match url with
               | 47%Z :: _ => Done url headers
               | _ => Fatal (bytes "404 No Leading Slash")
               end
      end
  end.

(** HTTP.fu:184-365 *)
Definition try_parse_request (b : rbuf) (data0 bytes_read : nat) : option (rbuf * outcome) :=
  do r <- start_line b data0;
  let hs := fst r in
  match snd r with
  | Some f => Some ({| rb_data := rb_data b; rb_hs := hs; rb_he := rb_he b |}, Fatal f)
  | None =>
      do r <- headers_part b hs data0 bytes_read;
      let he := fst r in
      match snd r with
      | Some f => Some ({| rb_data := rb_data b; rb_hs := hs; rb_he := he |}, Fatal f)
      | None =>
          (* 311-325 *)
          let headers := firstn he (rb_data b) in
          let data := skipn he (rb_data b) in
          let first_line := firstn hs headers in
          let headers := skipn hs headers in
          Some ({| rb_data := data; rb_hs := 0; rb_he := 0 |}, request_line first_line headers)
      end
  end.

(** HTTP.fu:430-448: bytes arrive and are parsed, unless none came *)
Definition on_readable (b : rbuf) (arrived : list Z) : option (rbuf * outcome) :=
  let data0 := List.length (rb_data b) in
  let b := {| rb_data := rb_data b ++ arrived; rb_hs := rb_hs b; rb_he := rb_he b |} in
  match arrived with
  | [] => Some (b, Incomplete)
  | _ => try_parse_request b data0 (List.length arrived)
  end.

(** HTTP.fu:393-424 respond; [content] is what with_buffer puts into the tail of the buffer.  None is the assertion
    at 408, or an assignment out of range. *)
Definition ends_with_crlf (h : list Z) : bool := beq (skipn (List.length h - 2) h) CRLF.
Definition assign_range (l : list Z) (start : nat) (x : list Z) : option (list Z) :=
  if start + List.length x <=? List.length l then Some (firstn start l ++ x ++ skipn (start + List.length x) l) else None.
Definition respond (out status headers content : list Z) : option (list Z) :=
  let out := out ++ bytes "HTTP/1.1 " ++ status ++ CRLF in
  let out := out ++ bytes "Connection: keep-alive" ++ CRLF in
  let out := out ++ bytes "Content-Length: " in
  let clenval_offset := List.length out in
  let out := out ++ bytes "0" ++ CRLF in
  let out := out ++ bytes "XXXXXXXXX: X" ++ CRLF in
  do out <- (match headers with [] => Some out | _ => if ends_with_crlf headers then Some (out ++ headers) else None end);
  let out := out ++ CRLF in
  let content_start := List.length out in
  let out := out ++ content in
  let clenval := (Z.of_nat (List.length out) - Z.of_nat content_start)%Z in
  if (clenval <=? 999999999)%Z then
    do lenstr <- i64dec clenval;
    assign_range out clenval_offset (lenstr ++ CRLF)
  else Some out.

(** HTTP.fu:381-391 *)
Definition fatal_response (out status : list Z) : list Z :=
  out ++ bytes "HTTP/1.1 " ++ status ++ CRLF ++ bytes "Connection: Close" ++ CRLF ++ CRLF.

(** HTTP.fu:24-27, 457-487: the output buffer; None: none allocated *)
Record wbuf := { wb_cursor : nat; wb_data : list Z }.
(** getWriteBuffer (150-158): a fresh one is empty, its cursor zero (Pool.fu:33-44, 70-72) *)
Definition get_wbuf (w : option wbuf) : wbuf := match w with Some w => w | None => {| wb_cursor := 0; wb_data := [] |} end.
(** What the connection does with its output: something is appended (a response); or the socket is writeable and
    takes up to n bytes of what is offered. *)
Inductive wop := Append (x : list Z) | Writeable (n : nat).
Definition wstep (w : option wbuf) (o : wop) : option wbuf * list Z :=
  match o with
  | Append x => let b := get_wbuf w in (Some {| wb_cursor := wb_cursor b; wb_data := wb_data b ++ x |}, [])
  | Writeable n =>
      match w with
      | None => (None, [])
      | Some b =>
          let offered := skipn (wb_cursor b) (wb_data b) in
          if n <? List.length offered then (Some {| wb_cursor := wb_cursor b + n; wb_data := wb_data b |}, firstn n offered)
          else (None, offered)
      end
  end.
Fixpoint wrun (w : option wbuf) (os : list wop) : option wbuf * list Z :=
  match os with
  | [] => (w, [])
  | o :: os => let (w, sent) := wstep w o in let (w, more) := wrun w os in (w, sent ++ more)
  end.
