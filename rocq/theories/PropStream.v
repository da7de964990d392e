(** Input streams: property theorems C52-C57, C96, C108 and C109 (see /verif/properties.jsonl). *)
From Verif Require Import Mem Hist HistProofs HistMore ModelString SpecString ModelStream SpecStream StreamProps.

(** ** C52.  A read outside the string is undefined in the model; at the end of
    the lives of all streams no memory is left. *)
Theorem C52_stream_refines ao co :
  no_fail ao → no_fail co → refines_from xspec g_run ∅ ∅ (λ s, s = ∅) plain_op ao co.
Proof. exact (g_refines ao co). Qed.
(** whatever allocations fail; a call that fails changes nothing *)
Theorem C52_stream_refines_failing ao co :
  no_fail co → refines_from xspec g_run ∅ ∅ (λ s, s = ∅) strong_op ao co.
Proof. exact (g_refines_failing ao co). Qed.
(** Any calls that stay inside the text deliver its characters at the cursor;
    each is followed by gcount(), which is the number of them. *)
Theorem C52_stream_reads s env m h x rs ds pos :
  g_state s env m → s !! h = Some x → none_set (x_st x) = true →
  cursor (x_txt x) (x_pos x) rs = Some (ds, pos) →
  ∃ n, g_gives s env m (concat (calls_of h <$> rs)) (concat (zip_with answers_to rs ds)) (<[h := x_at x pos n]> s).
Proof. exact (g_reads s env m h x rs ds pos). Qed.
Theorem C52_stream_open_reads s env m h cs mode rs ds pos :
  g_state s env m → s !! h = None → cursor cs 0 rs = Some (ds, pos) →
  ∃ s', g_gives s env m (GOpenI h cs mode :: concat (calls_of h <$> rs))
          (GoUnit true :: concat (zip_with answers_to rs ds)) s'.
Proof. exact (g_open_reads s env m h cs mode rs ds pos). Qed.
Print Assumptions C52_stream_refines.
Print Assumptions C52_stream_refines_failing.
Print Assumptions C52_stream_reads.
Print Assumptions C52_stream_open_reads.
(** "ab\0c", also with a failing allocation; "xy" is written to, not read *)
Example C52_example :
  answers_of xspec g_run ∅ ∅ (mem0 [false; true; false; true] [])
    [GOpenI 1 [97; 98; 0; 99]%N 0; GOpenI 1 [97; 98; 0; 99]%N 0; GOpenI 1 [97; 98; 0; 99]%N 0; GGet 1 0%N; GRead 1 2; GGcount 1;
     GUnget 1; GUnget 1; GRead 1 5; GGcount 1; GRdstate 1; GOpenS 2 [120; 121]%N 16; GGet 2 5%N; GEnd 1; GEnd 2; GNull 3; GGood 3; GEnd 3]
  = Some [Threw BadAlloc; Threw BadAlloc; Ret (GoUnit true); Ret (GoChar 97%N true); Ret (GoChars [98; 0]%N true); Ret (GoNum 2);
     Ret (GoUnit true); Ret (GoUnit true); Ret (GoChars [98; 0; 99]%N true); Ret (GoNum 3); Ret (GoNum 6); Ret (GoUnit true);
     Ret (GoChar 5%N true); Ret (GoUnit true); Ret (GoUnit true); Ret (GoUnit true); Ret (GoBool false); Ret (GoUnit true)].
Proof. vm_compute. reflexivity. Qed.
Example C52_example_cursor :
  cursor [97; 98; 0; 99]%N 1 [RGet; RRead 2; RUnget; RUnget; RRead 1; RUnget] = Some ([[98]; [0; 99]; []; []; [0]; []]%N, 2).
Proof. vm_compute. reflexivity. Qed.
(** the hypotheses of the theorems here about single calls *)
Example C52_example_state :
  ∃ s env m, g_state s env m ∧
    s !! 1 = Some (X [97; 98] 1 (Flags false true false) (Flags true false false) 1 (OfString true))%N ∧
    s !! 2 = Some (X [97; 0] 1 no_flags no_flags 1 OfFile)%N ∧
    s !! 3 = Some (X [] 0 (Flags true false false) no_flags 0 NoBuffer) ∧
    s !! 4 = Some (X [99] 0 no_flags no_flags 0 (OfString true))%N ∧ s !! 5 = None.
Proof.
  destruct (exec (gspec until_null no_skip) g_run ∅ ∅ (mem0 [] [])
    [GOpenI 1 [97; 98]%N 0; GMask 1 1; GGet 1 0%N; GSetstate 1 2; GFile 2 [97; 0]%N; GFread 2 1 1; GNull 3; GNewS 4; GStr 4 [99; 0; 5]%N])
    as [[[[evs s] env] m]|] eqn:E; [|vm_compute in E; discriminate].
  exists s, env, m. split; [exists [], evs; split; [constructor|by eapply exec_hist]|].
  vm_compute in E. injection E as <- <- <- <-. repeat split.
Qed.

(** ** C53: every state of every stream that a program can reach. *)
Section stream.
  Context (s : gmap nat xstream) (env : genv) (m : mem scell) (h : nat) (x : xstream).
  Context (Hs : g_state s env m) (Hx : s !! h = Some x).

  (** The [true] or [false] of an answer tells that no exception is thrown. *)
  Theorem C53_stream_get_at_end c0 :
    none_set (x_st x) = true → x_pos x = length (x_txt x) →
    g_gives s env m [GGet h c0; GGcount h; GRdstate h]
      [GoChar c0 (Z.eqb (Z.land (eofbit + failbit) (num (x_mask x))) 0); GoNum 0; GoNum (eofbit + failbit)]
      (<[h := X (x_txt x) (x_pos x) (Flags false true true) (x_mask x) 0 (x_src x)]> s).
  Proof. exact (get_at_end s env m h x Hs Hx c0). Qed.
  Theorem C53_stream_short_read n :
    none_set (x_st x) = true → length (x_txt x) < x_pos x + n →
    g_gives s env m [GRead h n; GGcount h; GRdstate h]
      [GoChars (drop (x_pos x) (x_txt x)) (Z.eqb (Z.land (eofbit + failbit) (num (x_mask x))) 0);
       GoNum (Z.of_nat (length (x_txt x) - x_pos x)); GoNum (eofbit + failbit)]
      (<[h := X (x_txt x) (length (x_txt x)) (Flags false true true) (x_mask x) (length (x_txt x) - x_pos x) (x_src x)]> s).
  Proof. exact (short_read s env m h x Hs Hx n). Qed.
  Theorem C53_stream_not_good c0 n :
    none_set (x_st x) = false →
    let f := both (x_st x) (Flags false false true) in
    let ok := Z.eqb (Z.land (num f) (num (x_mask x))) 0 in
    g_gives s env m [GGet h c0; GGcount h; GRead h n; GGcount h; GRdstate h]
      [GoChar c0 ok; GoNum 0; GoChars [] ok; GoNum 0; GoNum (Z.lor (num (x_st x)) failbit)]
      (<[h := X (x_txt x) (x_pos x) f (x_mask x) 0 (x_src x)]> s).
  Proof. exact (not_good s env m h x Hs Hx c0 n). Qed.
  Theorem C53_stream_unget_at_start :
    f_bad (x_st x) = false → f_fail (x_st x) = false → x_pos x = 0 →
    g_gives s env m [GUnget h; GRdstate h]
      [GoUnit (Z.eqb (Z.land badbit (num (x_mask x))) 0); GoNum badbit]
      (<[h := X (x_txt x) 0 (Flags true false false) (x_mask x) 0 (x_src x)]> s).
  Proof. exact (unget_start s env m h x Hs Hx). Qed.
  (** unget clears eof, also when eof was set *)
  Theorem C53_stream_unget_clears_eof p :
    f_bad (x_st x) = false → f_fail (x_st x) = false → x_pos x = S p →
    g_gives s env m [GUnget h; GRdstate h; GGcount h] [GoUnit true; GoNum 0; GoNum 0]
      (<[h := X (x_txt x) p no_flags (x_mask x) 0 (x_src x)]> s).
  Proof. exact (unget_eof s env m h x Hs Hx p). Qed.
  (** and clears nothing else *)
  Theorem C53_stream_unget_keeps_fail :
    f_bad (x_st x) || f_fail (x_st x) = true → x_mask x = no_flags →
    g_gives s env m [GUnget h; GRdstate h] [GoUnit true; GoNum (Z.lor (Z.land (num (x_st x)) badbit) failbit)]
      (<[h := X (x_txt x) (x_pos x) (Flags (f_bad (x_st x)) false true) no_flags 0 (x_src x)]> s).
  Proof. exact (unget_failed s env m h x Hs Hx). Qed.
  Theorem C53_stream_queries :
    ∃ z, (0 ≤ z < 8)%Z ∧
    g_gives s env m [GRdstate h; GGood h; GEof h; GFail h; GBool h; GNot h]
      [GoNum z; GoBool (Z.eqb z 0); GoBool (Z.testbit z 1); GoBool (Z.testbit z 0 || Z.testbit z 2);
       GoBool (negb (Z.testbit z 0 || Z.testbit z 2)); GoBool (Z.testbit z 0 || Z.testbit z 2)] s.
  Proof. exact (queries s env m h x Hs Hx). Qed.

  (** ** C54: the same character, and the same state as without unget and get *)
  Theorem C54_stream_get_after_unget c0 d0 c :
    none_set (x_st x) = true → x_txt x !! x_pos x = Some c →
    let s' := <[h := X (x_txt x) (x_pos x + 1) no_flags (x_mask x) 1 (x_src x)]> s in
    g_gives s env m [GGet h c0] [GoChar c true] s' ∧
    g_gives s env m [GGet h c0; GUnget h; GGet h d0] [GoChar c true; GoUnit true; GoChar c true] s'.
  Proof. exact (get_unget_get s env m h x Hs Hx c0 d0 c). Qed.

  (** ** C55: [GoUnit false] is the exception *)
  Theorem C55_stream_clear z :
    (0 ≤ z < 8)%Z →
    let z' := Z.lor z (match x_src x with NoBuffer => badbit | _ => 0%Z end) in
    ∃ s', g_gives s env m [GClear h z; GRdstate h] [GoUnit (Z.eqb (Z.land z' (num (x_mask x))) 0); GoNum z'] s'.
  Proof. exact (clear_gives s env m h x Hs Hx z). Qed.
  Theorem C55_stream_setstate z :
    (0 ≤ z < 8)%Z →
    let z' := Z.lor (num (x_st x)) z in
    ∃ s', g_gives s env m [GSetstate h z; GRdstate h] [GoUnit (Z.eqb (Z.land z' (num (x_mask x))) 0); GoNum z'] s'.
  Proof. exact (setstate_gives s env m h x Hs Hx z). Qed.
  Theorem C55_stream_exceptions z :
    (0 ≤ z < 8)%Z →
    ∃ s', g_gives s env m [GMask h z; GGetMask h; GRdstate h]
      [GoUnit (Z.eqb (Z.land (num (x_st x)) z) 0); GoNum z; GoNum (num (x_st x))] s'.
  Proof. exact (mask_gives s env m h x Hs Hx z). Qed.

  (** ** C56 in part: the characters of [cs] before the first null are read. *)
  Theorem C56_stream_str_partial cs c0 :
    x_src x = OfString true → none_set (x_st x) = true →
    let ds := until_null cs in
    ∃ s', g_gives s env m [GStr h cs; GRead h (length ds); GGet h c0; GEof h]
      [GoUnit true; GoChars ds true; GoChar c0 (Z.eqb (Z.land (eofbit + failbit) (num (x_mask x))) 0); GoBool true] s'.
  Proof. exact (str_gives s env m h x Hs Hx cs c0). Qed.
End stream.
Print Assumptions C53_stream_get_at_end.
Print Assumptions C53_stream_short_read.
Print Assumptions C53_stream_not_good.
Print Assumptions C53_stream_unget_at_start.
Print Assumptions C53_stream_unget_clears_eof.
Print Assumptions C53_stream_unget_keeps_fail.
Print Assumptions C53_stream_queries.
Print Assumptions C54_stream_get_after_unget.
Print Assumptions C55_stream_clear.
Print Assumptions C55_stream_setstate.
Print Assumptions C55_stream_exceptions.
Print Assumptions C56_stream_str_partial.
(** at the end; short; not good; before the start; after eof; after failure *)
Example C53_example :
  answers_of xspec g_run ∅ ∅ (mem0 [] [])
    [GOpenI 1 [97]%N 0; GGet 1 1%N; GGet 1 2%N; GRdstate 1; GGood 1; GEof 1; GFail 1; GBool 1; GNot 1; GRead 1 1; GGcount 1;
     GUnget 1; GRdstate 1; GClear 1 2; GUnget 1; GRdstate 1; GRead 1 4; GGcount 1; GClear 1 0; GUnget 1; GUnget 1; GRdstate 1; GEnd 1]
  = Some (Ret <$> [GoUnit true; GoChar 97%N true; GoChar 2%N true; GoNum 6; GoBool false; GoBool true; GoBool true; GoBool false; GoBool true;
     GoChars [] true; GoNum 0; GoUnit true; GoNum 4; GoUnit true; GoUnit true; GoNum 0; GoChars [97]%N true; GoNum 1;
     GoUnit true; GoUnit true; GoUnit true; GoNum 1; GoUnit true]).
Proof. vm_compute. reflexivity. Qed.
Example C54_example :
  answers_of xspec g_run ∅ ∅ (mem0 [] [])
    [GOpenS 1 [97; 98]%N 24; GGet 1 1%N; GGet 1 2%N; GUnget 1; GGet 1 3%N; GRdstate 1; GEnd 1]
  = Some (Ret <$> [GoUnit true; GoChar 97%N true; GoChar 98%N true; GoUnit true; GoChar 98%N true; GoNum 0; GoUnit true]).
Proof. vm_compute. reflexivity. Qed.
Example C55_example :
  answers_of xspec g_run ∅ ∅ (mem0 [] [])
    [GOpenI 1 [97]%N 0; GMask 1 2; GGet 1 1%N; GGet 1 2%N; GRdstate 1; GClear 1 4; GSetstate 1 1; GRdstate 1; GSetstate 1 2; GMask 1 0; GMask 1 4;
     GGetMask 1; GNull 2; GClear 2 0; GRdstate 2; GMask 2 1; GEnd 1; GEnd 2]
  = Some (Ret <$> [GoUnit true; GoUnit true; GoChar 97%N true; GoChar 2%N false; GoNum 6; GoUnit true; GoUnit true; GoNum 5; GoUnit false;
     GoUnit true; GoUnit false; GoNum 4; GoUnit true; GoUnit true; GoNum 1; GoUnit false; GoUnit true; GoUnit true]).
Proof. vm_compute. reflexivity. Qed.

(** ** C56: refuted for strings with a null inside: str assigns strings, which
    stops there. *)
Theorem C56_stream_str_refuted :
  ¬ refines_from xspec g_run ∅ ∅ (λ s, s = ∅) (λ _, True) [] [].
Proof. exact (wrong_refutes _ _ _ _ _ _ _ _ _ _ _ _ str_wrong gneq_refl (λ _ _, I)). Qed.
Print Assumptions C56_stream_str_refuted.
Example C56_example :
  answers_of xspec g_run ∅ ∅ (mem0 [] [])
    [GOpenI 1 [97; 98; 99]%N 0; GRead 1 2; GStr 1 [120; 121; 122; 120; 121; 122]%N; GRead 1 5; GStr 1 [98]%N; GRead 1 1; GRdstate 1; GEnd 1]
  = Some (Ret <$> [GoUnit true; GoChars [97; 98]%N true; GoUnit true; GoChars [120; 121; 122; 120; 121]%N true; GoUnit true;
     GoChars [98]%N true; GoNum 0; GoUnit true]).
Proof. vm_compute. reflexivity. Qed.

(** ** C57.  Afterwards everything is as before. *)
Theorem C57_fmemopen_fread s env m h cs ns :
  g_state s env m → s !! h = None →
  g_gives s env m (GFile h cs :: (GFread h 1 <$> ns) ++ [GFclose h])
    (GoUnit true :: ((λ c, GoRead c (Some (length c))) <$> slices cs ns) ++ [GoUnit true]) s.
Proof. exact (file_gives s env m h cs ns). Qed.
Print Assumptions C57_fmemopen_fread.
Example C57_example :
  slices [1; 2; 0; 4; 5]%N [2; 0; 1; 7; 3] = [[1; 2]; []; [0]; [4; 5]; []]%N ∧
  answers_of xspec g_run ∅ ∅ (mem0 [false; false; false; false; true] [])
    [GFile 1 [1; 2; 0; 4; 5]%N; GFread 1 1 2; GFile 2 [9]%N; GFread 1 1 0; GFread 1 1 1; GFread 1 1 7; GFread 1 1 3; GFclose 1]
  = Some [Ret (GoUnit true); Ret (GoRead [1; 2]%N (Some 2)); Threw BadAlloc; Ret (GoRead [] (Some 0)); Ret (GoRead [0]%N (Some 1));
     Ret (GoRead [4; 5]%N (Some 2)); Ret (GoRead [] (Some 0)); Ret (GoUnit true)].
Proof. split; vm_compute; reflexivity. Qed.

(** ** C96: whatever the flags of the stream are, which stay as they are *)
Theorem C96_buffer_reads s env m h x rs os before after :
  g_state s env m → s !! h = Some x → x_src x ≠ NoBuffer →
  split_read (rev (take (x_pos x) (x_txt x))) (drop (x_pos x) (x_txt x)) rs = (os, (before, after)) →
  g_gives s env m (bcall h <$> rs) os
    (<[h := X (x_txt x) (length before) (x_st x) (x_mask x) (x_count x) (x_src x)]> s).
Proof. exact (buffer_gives s env m h x rs os before after). Qed.
(** nothing is lost: both parts together are the text *)
Theorem C96_buffer_keeps_text before after rs os before' after' :
  split_read before after rs = (os, (before', after')) → rev before' ++ after' = rev before ++ after.
Proof. exact (split_read_txt before after rs os before' after'). Qed.
Theorem C96_stream_flush s env m h x :
  g_state s env m → s !! h = Some x →
  g_gives s env m [GFlush h; GRdbuf h] [GoUnit true; GoBool (has_buffer x)] s.
Proof. exact (flush_gives s env m h x). Qed.
Theorem C96_buffer_sync s env m h x :
  g_state s env m → s !! h = Some x → x_src x ≠ NoBuffer → g_gives s env m [GSync h] [GoNum 0] s.
Proof. exact (sync_gives s env m h x). Qed.
Print Assumptions C96_buffer_reads.
Print Assumptions C96_buffer_keeps_text.
Print Assumptions C96_stream_flush.
Print Assumptions C96_buffer_sync.
Example C96_example :
  split_read [] [97; 98; 0; 99]%N [BBack; BPeek; BNext; BBump; BGetn 5; BPeek; BNext; BBump; BBack; BBack; BGetn 1]
  = ([GoNum (-1); GoNum 97; GoNum 98; GoNum 98; GoChars [0; 99]%N true; GoNum (-1); GoNum (-1); GoNum (-1); GoNum 99; GoNum 0;
      GoChars [0]%N true], ([0; 98; 97], [99]))%N.
Proof. vm_compute. reflexivity. Qed.
(** at the end of the text the flags are not set, and set flags do not matter *)
Example C96_example_flags :
  answers_of xspec g_run ∅ ∅ (mem0 [] [])
    [GOpenI 1 [97; 98]%N 0; GGetn 1 3; GPeek 1; GRdstate 1; GGcount 1; GGet 1 5%N; GRdstate 1; GBack 1; GPeek 1; GFlush 1; GSync 1;
     GRdstate 1; GRead 1 1; GClear 1 0; GRead 1 1; GNull 2; GRdbuf 2; GFlush 2; GEnd 1; GEnd 2]
  = Some (Ret <$> [GoUnit true; GoChars [97; 98]%N true; GoNum (-1); GoNum 0; GoNum 0; GoChar 5%N true; GoNum 6; GoNum 98; GoNum 98;
     GoUnit true; GoNum 0; GoNum 6; GoChars [] true; GoUnit true; GoChars [98]%N true; GoUnit true; GoBool false; GoUnit true;
     GoUnit true; GoUnit true]).
Proof. vm_compute. reflexivity. Qed.

(** ** C108: skipping white space is refuted: the stream has no ctype facet. *)
Theorem C108_sentry_skip_refuted :
  ¬ refines_from xspec g_run ∅ ∅ (λ s, s = ∅) (λ op, match op with GStr _ _ => False | _ => True end) [] [].
Proof. exact skip_refuted. Qed.
(** Whatever is at the cursor, a sentry that should skip white space makes a good
    stream bad, skips nothing, and is false, unless an exception leaves it. *)
Theorem C108_sentry_skip_partial s env m h x :
  g_state s env m → s !! h = Some x → none_set (x_st x) = true →
  let f := Flags true false (negb (f_bad (x_mask x))) in
  g_gives s env m [GSentry h false; GRdstate h]
    [if f_bad (x_mask x) then GoBadCast else if f_fail (x_mask x) then GoUnit false else GoBool false;
     GoNum (if f_bad (x_mask x) then badbit else Z.lor badbit failbit)]
    (<[h := X (x_txt x) (x_pos x) f (x_mask x) (x_count x) (x_src x)]> s).
Proof. exact (sentry_skip s env m h x). Qed.
Theorem C108_sentry_noskip s env m h x :
  g_state s env m → s !! h = Some x → none_set (x_st x) = true → g_gives s env m [GSentry h true] [GoBool true] s.
Proof. exact (sentry_noskip s env m h x). Qed.
Theorem C108_sentry_not_good s env m h x noskip :
  g_state s env m → s !! h = Some x → none_set (x_st x) = false →
  let f := both (x_st x) (Flags false false true) in
  g_gives s env m [GSentry h noskip; GRdstate h]
    [if meet f (x_mask x) then GoUnit false else GoBool false; GoNum (Z.lor (num (x_st x)) failbit)]
    (<[h := X (x_txt x) (x_pos x) f (x_mask x) (x_count x) (x_src x)]> s).
Proof. exact (λ Hs Hx, sentry_not_good s env m h x Hs Hx noskip). Qed.
(** skipws | dec *)
Theorem C108_stream_flags s env m h x : g_state s env m → s !! h = Some x → g_gives s env m [GFlags h] [GoNum 4098] s.
Proof. exact (flags_gives s env m h x). Qed.
Print Assumptions C108_sentry_skip_refuted.
Print Assumptions C108_sentry_skip_partial.
Print Assumptions C108_sentry_noskip.
Print Assumptions C108_sentry_not_good.
Print Assumptions C108_stream_flags.
(** " a": with no mask, with bad and with fail in it; the 'a' alone *)
Example C108_example :
  answers_of (gspec until_null no_skip) g_run ∅ ∅ (mem0 [] [])
    [GOpenI 1 [32; 97]%N 0; GSentry 1 true; GSentry 1 false; GRdstate 1; GSentry 1 true; GClear 1 0; GMask 1 1; GSentry 1 false; GRdstate 1;
     GClear 1 0; GMask 1 4; GSentry 1 false; GRdstate 1; GClear 1 0; GGet 1 0%N; GMask 1 0; GSentry 1 false; GClear 1 0; GGet 1 0%N; GEnd 1]
  = Some (Ret <$> [GoUnit true; GoBool true; GoBool false; GoNum 5; GoBool false; GoUnit true; GoUnit true; GoBadCast; GoNum 1;
     GoUnit true; GoUnit true; GoUnit false; GoNum 5; GoUnit true; GoChar 32%N true; GoUnit true; GoBool false; GoUnit true;
     GoChar 97%N true; GoUnit true]).
Proof. vm_compute. reflexivity. Qed.
(** what should happen: the space is skipped; at the end eof and fail *)
Example C108_example_skips :
  (skips (X [32; 10; 97] 0 no_flags no_flags 0 (OfString true)) = (X [32; 10; 97] 2 no_flags no_flags 0 (OfString true), GoBool true) ∧
   skips (X [97; 32] 1 no_flags no_flags 0 (OfString true)) = (X [97; 32] 2 (Flags false true true) no_flags 0 (OfString true), GoBool false))%N.
Proof. split; vm_compute; reflexivity. Qed.

(** ** C109: cin is not the standard input: if that is anything but "cin", reading
    does not deliver it. *)
Theorem C109_cin_refuted s env m h input :
  g_state s env m → s !! h = None → input ≠ [99; 105; 110]%N →
  ¬ ∀ n, ∃ s', g_gives s env m [GCin h; GRead h n; GRdstate h]
    [GoUnit true; GoChars (take n input) true; GoNum (if length input <? n then (eofbit + failbit)%Z else 0%Z)] s'.
Proof. exact (cin_other s env m h input). Qed.
(** the characters 'c', 'i', 'n' are there to be read, and nothing after them *)
Theorem C109_cin_partial s env m h rs ds pos :
  g_state s env m → s !! h = None → cursor [99; 105; 110]%N 0 rs = Some (ds, pos) →
  ∃ s', g_gives s env m (GCin h :: concat (calls_of h <$> rs)) (GoUnit true :: concat (zip_with answers_to rs ds)) s'.
Proof. exact (cin_reads s env m h rs ds pos). Qed.
Theorem C109_cin_read_partial s env m h n :
  g_state s env m → s !! h = None →
  ∃ s', g_gives s env m [GCin h; GRead h n; GRdstate h]
    [GoUnit true; GoChars (take n [99; 105; 110]%N) true; GoNum (if 3 <? n then (eofbit + failbit)%Z else 0%Z)] s'.
Proof. exact (cin_read s env m h n). Qed.
Print Assumptions C109_cin_refuted.
Print Assumptions C109_cin_partial.
Print Assumptions C109_cin_read_partial.
Example C109_example :
  answers_of xspec g_run ∅ ∅ (mem0 [] []) [GCin 0; GGet 0 0%N; GRead 0 2; GGood 0; GGet 0 0%N; GRdstate 0; GEnd 0]
  = Some (Ret <$> [GoUnit true; GoChar 99%N true; GoChars [105; 110]%N true; GoBool true; GoChar 0%N true; GoNum 6; GoUnit true]).
Proof. vm_compute. reflexivity. Qed.
