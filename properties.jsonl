{"id": "C01", "title": "Len counts runes", "statement": "Len(s) is the number of runes a `for range s` loop visits: every well-formed character counts once and every byte that is not part of a well-formed UTF-8 sequence counts once; Len never exceeds the byte length, and Len(a+b)=Len(a)+Len(b) whenever b does not begin with a continuation byte.", "quantifier": "every byte string, valid UTF-8 or not", "why_tests_cant": "infinitely many strings, including ill-formed ones and every split point", "anchors": ["xstring/xstring.go:Len"]}
{"id": "C02", "title": "Left/right padding", "statement": "PadLeftChar(s,size,ch) is exactly (size-Len(s)) copies of ch followed by s when size>Len(s), otherwise s itself; PadRightChar is the mirror image; the result has Len = max(size,Len(s)); PadLeftSpace/PadRightSpace are the same with ' '. An invalid rune ch is padded as U+FFFD.", "quantifier": "every byte string s, every size (negative, zero, positive), every rune value", "why_tests_cant": "unbounded sizes, all strings, all rune values", "anchors": ["xstring/xstring.go:PadLeftChar", "xstring/xstring.go:PadRightChar", "xstring/xstring.go:padCharLeftOrRight", "xstring/xstring.go:RepeatChar"]}
{"id": "C03", "title": "Centre padding", "statement": "PadCenterChar(s,size,ch) surrounds s with floor(d/2) copies of ch on the left and ceil(d/2) on the right, d=size-Len(s), when d>0, and returns s otherwise; the result has Len = max(size,Len(s)).", "quantifier": "every byte string, every size, every rune", "why_tests_cant": "odd/even splits at every size and for multi-byte text", "anchors": ["xstring/xstring.go:PadCenterChar", "xstring/xstring.go:PadCenterSpace"]}
{"id": "C04", "title": "RepeatChar and RemoveChar", "statement": "RepeatChar(ch,n) holds exactly max(n,0) runes, all equal to ch (or to U+FFFD when ch is not a Unicode scalar value). RemoveChar(s,ch) keeps, in order, exactly the runes of s different from ch; on valid UTF-8 the bytes of kept characters are unchanged.", "quantifier": "every string, rune and count", "why_tests_cant": "the count and the string are unbounded, and the rune may be any of 2^32 values", "anchors": ["xstring/xstring.go:RepeatChar", "xstring/xstring.go:RemoveChar"]}
{"id": "C05", "title": "Sub/Left/Right slice by rune", "statement": "Sub(s,start,end) never panics and returns the runes of s from position start to end where a negative index counts from the end and both indices are clamped to the string; it is empty when start lies past end. Left(s,e)=Sub(s,0,e); Right(s,b)=Sub(s,b,Len(s)). On valid UTF-8 the result is the corresponding piece of s byte for byte and Left(s,i)+Right(s,i)=s for 0<=i<=Len(s).", "quantifier": "every byte string and every pair of int64 indices", "why_tests_cant": "all index pairs including extreme int64 values, all strings", "anchors": ["xstring/xstring.go:Sub", "xstring/xstring.go:Left", "xstring/xstring.go:Right", "xstring/xstring.go:sub"]}
{"id": "C06", "title": "Rotate", "statement": "Rotate(s,k) moves the last (k mod len) characters of s to the front: true for every k when each character of s is one byte. For text with multi-byte characters the shift is reduced modulo the BYTE length and then clamped to the rune count, so the result is still a rotation of the characters of s but by a different amount in general (concrete counterexample), and s itself whenever |k mod bytes| >= Len(s).", "quantifier": "every valid UTF-8 string and every int64 shift", "why_tests_cant": "all shifts and strings; the multi-byte deviation is invisible to ASCII tests", "anchors": ["xstring/xstring.go:Rotate"]}
{"id": "C07", "title": "Reverse", "statement": "Reverse(s) returns the characters of s in reverse order and a nil error exactly when s is valid UTF-8 that contains no U+FFFD; otherwise it returns ErrDecodeChar (so a valid string containing U+FFFD is rejected) . When it succeeds Reverse(Reverse(s))=s and the byte length is kept. MustReverse panics exactly when Reverse errs.", "quantifier": "every byte string", "why_tests_cant": "needs all strings, valid and invalid, and backward decoding at every position", "anchors": ["xstring/xstring.go:Reverse", "xstring/xstring.go:MustReverse"]}
{"id": "C08", "title": "Shuffle permutes", "statement": "For every outcome of the random source Shuffle(s) is a permutation of the runes of s, and every permutation is produced by exactly one sequence of random draws (so uniform draws give a uniform shuffle).", "quantifier": "every string and every sequence of rand.Intn results", "why_tests_cant": "all random outcomes and all lengths", "anchors": ["xstring/xstring.go:Shuffle"]}
{"id": "C09", "title": "RemoveString", "statement": "RemoveString(s,sub) deletes the non-overlapping occurrences of sub found scanning left to right; everything else is kept in order; s is unchanged if sub does not occur or either is empty. The result can contain sub again (concrete witness), so removal is not idempotent.", "quantifier": "every pair of byte strings", "why_tests_cant": "overlaps and re-formed occurrences at every position", "anchors": ["xstring/xstring.go:RemoveString"]}
{"id": "C10", "title": "Character class predicates", "statement": "IsAlpha/IsAlphanumeric/IsNumeric(s) are true iff s is non-empty and every rune is a letter / letter-or-digit / digit; IsBlank(s) iff every rune is white space (so also for \"\"); IsEmpty iff len=0; IsAny*(ss) iff ss is empty or some element qualifies; the IsNone*/IsNot* forms are exact negations. IsAlpha or IsNumeric implies IsAlphanumeric and excludes IsBlank when classes are disjoint.", "quantifier": "every string, every list of strings, every Unicode classification", "why_tests_cant": "they range over all strings and over every classification of characters", "anchors": ["xstring/xstring.go:IsAlpha", "xstring/xstring.go:IsAlphanumeric", "xstring/xstring.go:IsNumeric", "xstring/xstring.go:IsBlank", "xstring/xstring.go:IsAnyBlank", "xstring/xstring.go:IsAnyEmpty", "xstring/xstring.go:IsNoneBlank", "xstring/xstring.go:IsNoneEmpty"]}
{"id": "C11", "title": "IsNumerical", "statement": "IsNumerical accepts every string of the form digits or digits.digits, rejects every string that does not start with a digit, and accepts exactly: one or more ASCII digits, at most one arbitrary character other than newline, then any number of digits - so strings such as \"1x2\" that are not numbers are accepted.", "quantifier": "every byte string", "why_tests_cant": "all strings; the unescaped dot is invisible to tests that use a real decimal point", "anchors": ["xstring/xstring.go:IsNumerical"]}
{"id": "C12", "title": "IndexOfDifference", "statement": "IndexOfDifference(strs...) is -1 iff fewer than two strings are given or all have the same runes; otherwise it is the largest i such that all strings agree on their first i runes. For two strings it equals IndexOfDifferenceWithTwoStr. Strings that differ only in ill-formed bytes count as equal. Deviation: two equal strings longer than 2^33-1 runes give 2^33-1 instead of -1.", "quantifier": "every list of byte strings shorter than 2^33 runes (and, for the deviation, every longer string up to 2^53 runes)", "why_tests_cant": "any number of strings, any contents", "anchors": ["xstring/xstring.go:IndexOfDifference", "xstring/xstring.go:IndexOfDifferenceWithTwoStr", "xmath/xmath.go:MinInt"]}
{"id": "C13", "title": "CommonPrefix and Difference", "statement": "On valid UTF-8 CommonPrefix(strs...) is the longest sequence of whole characters that is a prefix of every argument, and Difference(a,b) is what is left of b after its longest common prefix with a (\"\" when a and b are equal or b is a prefix of a). On ill-formed input CommonPrefix can return a string that is not a prefix of the arguments (witness).", "quantifier": "every list / pair of strings shorter than 2^33 runes", "why_tests_cant": "maximality ranges over all candidate prefixes", "anchors": ["xstring/xstring.go:CommonPrefix", "xstring/xstring.go:Difference"]}
{"id": "C14", "title": "RegionMatches and ContainsIgnoreCase", "statement": "RegionMatches(str,ic,i,sub,j,n) is true iff 0<=i,j,n, both regions lie inside their strings and the n runes agree pairwise (up to case folding when ic); it never panics. ContainsIgnoreCase(s,t) is true iff some rune window of s of Len(t) equals t up to case folding.", "quantifier": "all strings, all int offsets/lengths, every case mapping", "why_tests_cant": "all offsets including out of range and extreme ones", "anchors": ["xstring/xstring.go:RegionMatches", "xstring/xstring.go:ContainsIgnoreCase"]}
{"id": "C15", "title": "EqualsIgnoreCase", "statement": "EqualsIgnoreCase(a,b) is true whenever a and b are equal up to case folding. The converse fails: it is true iff a is, up to case folding, a PREFIX of b, so EqualsIgnoreCase(\"abc\",\"abcd\") and EqualsIgnoreCase(\"\",x) are true and the relation is not symmetric.", "quantifier": "every pair of strings, every case mapping", "why_tests_cant": "needs all pairs of different lengths", "anchors": ["xstring/xstring.go:EqualsIgnoreCase"]}
{"id": "C16", "title": "EndsWith family", "statement": "EndsWithCase(s,t) is true iff the runes of t are a suffix of the runes of s (on valid UTF-8: iff t is a byte suffix of s); EndsWithIgnoreCase the same up to case folding; EndsWithAny(s,ts...) iff s is non-empty and some t qualifies (so EndsWithAny(\"\",\"\") is false).", "quantifier": "every string and list of suffixes", "why_tests_cant": "they range over all pairs of strings, ill-formed ones included", "anchors": ["xstring/xstring.go:EndsWith", "xstring/xstring.go:EndsWithCase", "xstring/xstring.go:EndsWithIgnoreCase", "xstring/xstring.go:EndsWithAny"]}
{"id": "C17", "title": "DeleteWhitespace", "statement": "DeleteWhitespace(s) returns s without its white-space runes, except when the byte length of that result happens to equal Len(s): then s itself is returned unchanged, white space included (witness: \"\\u00e9 \"). It is correct for every ASCII string.", "quantifier": "every byte string", "why_tests_cant": "the failing coincidence needs multi-byte text whose size matches", "anchors": ["xstring/xstring.go:DeleteWhitespace"]}
{"id": "C18", "title": "Abbreviate", "statement": "With offset <= Len(marker)+1 and a window that does not reach the end, Abbreviate(str,marker,offset,w) returns str when it fits, otherwise the first w-Len(marker) runes of str followed by marker, of Len exactly w; it errs iff w < Len(marker)+1. For larger offsets the code slices the wrong side of str, and the result can be wider than w (witness).", "quantifier": "every text shorter than 2^62 bytes, every marker shorter than 2^60 bytes, every int64 width and every int64 offset above the least one plus Len(str) (below that the offset wraps around: witness)", "why_tests_cant": "all widths and offsets, including those that reach the tail branch", "anchors": ["xstring/xstring.go:Abbreviate"]}
{"id": "C19", "title": "Defaults, equality and containment helpers", "statement": "DefaultIfEmpty/DefaultIfBlank return the default exactly on empty/blank input; EqualsAny iff the string occurs in the list; Contains(s,t) iff s is non-empty and t occurs in s; ContainsAnySubstrings iff some element occurs in s; Index is the least byte offset at which t occurs or -1; IndexAny is the byte offset of the first character that is among chars, or -1 exactly when there is none.", "quantifier": "every string and list", "why_tests_cant": "they range over all strings, lists and occurrence positions", "anchors": ["xstring/xstring.go:DefaultIfBlank", "xstring/xstring.go:DefaultIfEmpty", "xstring/xstring.go:EqualsAny", "xstring/xstring.go:Contains", "xstring/xstring.go:ContainsAnySubstrings", "xstring/xstring.go:Index", "xstring/xstring.go:IndexAny"]}
{"id": "C20", "title": "Joiner output", "statement": "After any sequence of WriteString/WriteRune/WriteByte/Write calls on a new Joiner, String() = prefix + pieces joined by step + suffix. With Grow/Reset in the history: a Grow before the first write, or a Reset after something was written or grown, makes the next write emit a leading step (witness).", "quantifier": "every option list and every sequence of operations", "why_tests_cant": "unbounded operation histories", "anchors": ["xstring/stringjoiner.go:Joiner", "xstring/stringjoiner.go:tryWriteStep", "xstring/stringjoiner.go:Reset", "xstring/stringjoiner.go:Grow"]}
{"id": "C21", "title": "Joiner length", "statement": "After any history Len() equals the byte length of String(), Cap() >= Len(), and each Write* call returns the number of bytes of its own argument and no error.", "quantifier": "every option list and history", "why_tests_cant": "unbounded histories", "anchors": ["xstring/stringjoiner.go:Len", "xstring/stringjoiner.go:Cap"]}
{"id": "C22", "title": "BatchError", "statement": "Adding errors in any order: nil errors are ignored; Err() is nil iff nothing non-nil was added, the very error if exactly one was, otherwise an error whose message is the individual messages in insertion order joined by newlines; NotNil() iff Err() is non-nil.", "quantifier": "every sequence of Add calls", "why_tests_cant": "the sequences of Add calls are unbounded", "anchors": ["xerror/err.go:BatchError", "xerror/err.go:Add", "xerror/err.go:Err", "xerror/err.go:Error"]}
{"id": "C23", "title": "Integer max/min are exact up to 2^53", "statement": "MaxInt/MinInt/MaxInt64/MinInt64 return the exact maximum/minimum whenever both arguments lie in [-2^53, 2^53].", "quantifier": "all pairs of integers in the range", "why_tests_cant": "2^108 pairs", "anchors": ["xmath/xmath.go:MaxInt", "xmath/xmath.go:MinInt", "xmath/xmath.go:MaxInt64", "xmath/xmath.go:MinInt64"]}
{"id": "C24", "title": "Integer max/min beyond 2^53", "statement": "Outside that range the result is the true maximum/minimum rounded to the nearest float64 (ties to even), so MaxInt(2^53+1,0)=2^53 and the result can equal neither argument; for arguments above 2^63-513 the conversion back to int64 overflows.", "quantifier": "all pairs of int64", "why_tests_cant": "2^128 pairs", "anchors": ["xmath/xmath.go:MaxInt", "xmath/xmath.go:MaxInt64"]}
{"id": "C25", "title": "Float max/min", "statement": "MaxFloat64/MinFloat64 return one of the two arguments (up to NaN payload), that is >= (<=) both when neither is NaN; they are commutative; NaN wins except against the dominating infinity; +0 is larger than -0. MaxFloat32/MinFloat32 agree with exact comparison of the float32 arguments.", "quantifier": "every pair of IEEE-754 values", "why_tests_cant": "2^128 pairs including NaN, infinities, signed zeros, subnormals", "anchors": ["xmath/xmath.go:MaxFloat64", "xmath/xmath.go:MinFloat64", "xmath/xmath.go:MaxFloat32", "xmath/xmath.go:MinFloat32"]}
{"id": "C26", "title": "Binary codec round-trip", "statement": "Writing any sequence of bools, uint16s, uint32s and byte strings shorter than 65536 bytes to a buffer and reading it back with the matching calls returns the same values in order and consumes exactly the bytes written, leaving what follows untouched.", "quantifier": "every finite sequence of typed values and every trailing data", "why_tests_cant": "the sequences of values are unbounded and each value ranges over its whole type", "anchors": ["xbinary/xbinary.go:WriteUint16", "xbinary/xbinary.go:ReadUint16", "xbinary/xbinary.go:WriteUint32", "xbinary/xbinary.go:ReadUint32", "xbinary/xbinary.go:WriteBool", "xbinary/xbinary.go:ReadBool", "xbinary/xbinary.go:WriteBytes", "xbinary/xbinary.go:ReadBytes"]}
{"id": "C27", "title": "WriteBytes length prefix", "statement": "WriteBytes prefixes len(s) mod 65536: for len(s) >= 65536 it reports success but ReadBytes gets back only the first len mod 65536 bytes and the stream is out of step.", "quantifier": "every byte string", "why_tests_cant": "the deviation appears only from 65536 bytes on and must be settled for every length", "anchors": ["xbinary/xbinary.go:WriteBytes", "xbinary/xbinary.go:ReadBytes"]}
{"id": "C28", "title": "Reads on short or chunked input", "statement": "With any reader: ReadUint16/32 succeed iff the first Read call delivers the full 2/4 bytes without error, otherwise return 0 and the reader's error or ErrInvalidLength (so a correct stream delivered in smaller chunks is rejected); ReadBytes accepts every chunking of the payload; truncated payloads give an error and no data. ReadBool ignores the byte count, so a Read returning 0 bytes and no error makes it return whatever the recycled buffer held.", "quantifier": "every reader behaviour (any chunking, any error point) and every prior pool content", "why_tests_cant": "all chunkings and pool histories", "anchors": ["xbinary/xbinary.go:ReadUint16", "xbinary/xbinary.go:ReadUint32", "xbinary/xbinary.go:ReadBool", "xbinary/xbinary.go:ReadBytes"]}
{"id": "C29", "title": "Malloc shape", "statement": "Malloc(size,capacity) with size >= 0 returns a slice of length size and capacity max(size,capacity), after any history of Malloc/Free, and panics exactly when size < 0.", "quantifier": "every history of Malloc/Free calls and every pool behaviour", "why_tests_cant": "unbounded histories, nondeterministic pool", "anchors": ["xbytes/pool.go:Malloc", "xbytes/pool.go:MallocSize", "xbytes/pool.go:Free"]}
{"id": "C30", "title": "No two live buffers overlap", "statement": "If callers free only memory they own and at most once, then after any history no two outstanding buffers share a byte, whatever sync.Pool keeps or drops. Contents are not cleared: a buffer can expose bytes of a previous owner (witness).", "quantifier": "every history with arbitrary sub-slicing before Free and every pool choice", "why_tests_cant": "unbounded histories", "anchors": ["xbytes/pool.go:Malloc", "xbytes/pool.go:Free", "xbytes/pool.go:getOrCreatePool"]}
{"id": "C31", "title": "Pooled readers are isolated", "statement": "After any history of Get/Put, a reader returned by GetBufferReader[Size](r) holds no buffered data or sticky error and delivers exactly r's bytes. Its buffer size is that of whichever reader was recycled, so GetBufferReaderSize(r,n) does not guarantee n bytes of buffer when the pool is non-empty (witness). The exception: with an empty pool, a Get given a bufio.Reader whose buffer has at least the size asked for returns that very reader (exactly then); PutBufferReader afterwards resets the caller's own reader (witness).", "quantifier": "every history and pool choice", "why_tests_cant": "unbounded histories", "anchors": ["xio/buffer.go:GetBufferReader", "xio/buffer.go:GetBufferReaderSize", "xio/buffer.go:PutBufferReader"]}
{"id": "C32", "title": "Pooled writers are isolated", "statement": "After any history of Get/Put/Write/Flush, bytes reach only the writer they were written through the handle of, in order; a writer handed out never emits a previous holder's bytes or error; bytes not flushed before PutBufferWriter are dropped. The exception: with an empty pool, a Get given a bufio.Writer whose buffer has at least the size asked for returns that very writer (exactly then); after PutBufferWriter the caller's own unflushed bytes are lost and its later writes reach the next holder's destination (witness).", "quantifier": "every history and pool choice", "why_tests_cant": "unbounded histories", "anchors": ["xio/buffer.go:GetBufferWriter", "xio/buffer.go:GetBufferWriterSize", "xio/buffer.go:PutBufferWriter"]}
{"id": "C33", "title": "Ring keeps the newest n", "statement": "After any sequence of k Add calls on NewRing(n), Take returns the last min(n,k) added values, oldest first, and leaves the ring unchanged; NewRing panics iff n < 1.", "quantifier": "every n >= 1 and every Add sequence shorter than 2^63", "why_tests_cant": "unbounded sequences, wrap-around at every offset", "anchors": ["xring/xring.go:NewRing", "xring/xring.go:Add", "xring/xring.go:Take"]}
{"id": "C34", "title": "Ring under concurrency", "statement": "With any number of goroutines calling Add and Take in any interleaving, every Take returns the newest min(n,k) values of the Adds that completed their critical section before it, in that order.", "quantifier": "every schedule of every set of goroutines", "why_tests_cant": "schedules are unbounded", "anchors": ["xring/xring.go:Add", "xring/xring.go:Take"]}
{"id": "C35", "title": "DoWithRetry", "statement": "DoWithRetry(fn, WithRetry(t)) calls fn until the first success and at most t+1 times (4 by default); returns nil iff one of those calls succeeded, otherwise all t+1 errors in order. With t < 0 fn is never called and nil is returned (witness). The last WithRetry option wins.", "quantifier": "every behaviour of fn over time, every t, every option list", "why_tests_cant": "all failure patterns and counts", "anchors": ["xtask/retry.go:DoWithRetry", "xtask/retry.go:WithRetry"]}
{"id": "C36", "title": "Do returns one of three outcomes", "statement": "Do(ctx,do,df) returns do's own error, or ctx.Err() after ctx was done, or panics with do's panic, never anything else; do is started at most once; if ctx is done before the call, do is never started and ctx.Err() is returned.", "quantifier": "every schedule of the caller, the spawned goroutine and cancellation", "why_tests_cant": "the outcome depends on the interleaving of caller, goroutine and cancellation; a test runs only the few the scheduler picks", "anchors": ["xtask/do.go:Do"]}
{"id": "C37", "title": "Do runs deferFunc exactly once", "statement": "In every execution deferFunc (if not nil) runs exactly once by the time Do returns or panics, including when ctx is already done or do panics, and never before the outcome is decided.", "quantifier": "every schedule", "why_tests_cant": "deferFunc could run twice or never only in rare interleavings of return, panic and cancellation", "anchors": ["xtask/do.go:Do"]}
{"id": "C38", "title": "Do leaves no blocked goroutine", "statement": "The goroutine running do is never blocked on handing over its result: once do returns or panics it terminates on its own even if Do already returned on cancellation.", "quantifier": "every schedule", "why_tests_cant": "needs every interleaving of cancellation and completion", "anchors": ["xtask/do.go:Do"]}
{"id": "C39", "title": "Do terminates when do does", "statement": "If do returns or panics with a non-nil value, or ctx is eventually done, Do returns: it cannot be stuck. If do exits through runtime.Goexit (or panics with nil under go<1.21 semantics) with a ctx that is never done, Do blocks forever (witness).", "quantifier": "every schedule", "why_tests_cant": "absence of deadlock is a statement about all schedules; a test that hangs or not shows one of them", "anchors": ["xtask/do.go:Do"]}
{"id": "C40", "title": "Worker bounds concurrency", "statement": "With all Run calls sharing one context, at most size run functions execute at any moment, in every schedule, cancelled or not. With different contexts the bound fails: a cancelled run keeps executing after its slot was released (witness).", "quantifier": "every schedule, any number of Run calls", "why_tests_cant": "the bound must hold at every instant of every interleaving of any number of Run calls and cancellations", "anchors": ["xworker/xworker.go:Run", "xworker/xworker.go:NewWorker"]}
{"id": "C41", "title": "Worker accounting", "statement": "Every Run that acquired a slot executes its deferFunc exactly once and releases exactly one slot, so the number of occupied slots never exceeds size and is zero when all tasks ended; Run blocks only while size tasks hold slots; with size 0 every Run blocks forever.", "quantifier": "every schedule without task panics", "why_tests_cant": "a lost or doubled slot shows only in particular interleavings of unboundedly many calls", "anchors": ["xworker/xworker.go:Run"]}
{"id": "C42", "title": "xonce.Chan accepts one write", "statement": "For any number of concurrent Write calls exactly one returns true (the first), no call panics or blocks, and receivers get exactly that value once and then see the channel closed.", "quantifier": "every schedule of writers and receivers", "why_tests_cant": "which Write wins and what receivers see depends on the interleaving of any number of goroutines", "anchors": ["xonce/chan.go:Write", "xonce/chan.go:Chan"]}
{"id": "C43", "title": "xonce.Value is write-once", "statement": "Of all Write calls with non-nil values of one type exactly one returns true, Value() is nil before it takes effect and that value forever after. Write(nil) panics, and a Write whose dynamic type differs from the stored value's panics instead of returning false (witness).", "quantifier": "every schedule", "why_tests_cant": "schedules, including the in-progress first store", "anchors": ["xonce/value.go:Write", "xonce/value.go:Value"]}
{"id": "C44", "title": "Read barrier", "statement": "If the context is done when Read is called it returns (nil,false) and takes nothing from the channel; otherwise it takes exactly one value in FIFO order and returns it with true. A closed channel yields (nil,true), and a Read already waiting is not released by cancellation (witnesses).", "quantifier": "every schedule of cancellation, senders and close", "why_tests_cant": "cancellation, send and close can fall at any moment of the call", "anchors": ["xbarrier/readbarrier.go:Read"]}
{"id": "C45", "title": "Write barrier", "statement": "If the context is done when Write is called it returns false and sends nothing; when it returns true exactly v was sent once. A Write already waiting is not released by cancellation and panics if the channel is closed meanwhile (witnesses).", "quantifier": "every schedule", "why_tests_cant": "cancellation, receive and close can fall at any moment of the call", "anchors": ["xbarrier/writebarrier.go:Write"]}
{"id": "C46", "title": "Spinlock mutual exclusion", "statement": "If goroutines unlock only what they locked, at most one goroutine is between a successful Lock/TryLock and its Unlock at any moment, TryLock succeeds iff the lock is free at that instant, and Lock returns only while holding the lock.", "quantifier": "every schedule and number of goroutines", "why_tests_cant": "mutual exclusion is a statement about every instant of every interleaving", "anchors": ["xsync/spinlock.go:Lock", "xsync/spinlock.go:TryLock", "xsync/spinlock.go:Unlock"]}
{"id": "C47", "title": "Spinlock backoff and progress", "statement": "A waiting Lock yields 1,2,4,8,16,16,... times between attempts, never more than 16, and a free lock is always acquirable: some waiter's next attempt succeeds (no deadlock), though an individual waiter may starve.", "quantifier": "every schedule", "why_tests_cant": "unbounded number of attempts", "anchors": ["xsync/spinlock.go:Lock"]}
{"id": "C48", "title": "Map behaves like a map (sequential)", "statement": "For every sequence of Load, Store, LoadOrStore, ComputeIfAbsent, ComputeIfPresent, LoadAndDelete, Delete, Clear and Range the results equal those of a plain map with the documented meaning of each call, whatever internal promotions and copies happen.", "quantifier": "every operation sequence, keys and values", "why_tests_cant": "unbounded histories; promotion/expunge states depend on history", "anchors": ["xsync/map.go:Map"]}
{"id": "C49", "title": "Map.Range (sequential)", "statement": "Range calls f exactly once per present key with its current value (in some order), stops right after f returns false, and does not change the contents; after Clear nothing is present.", "quantifier": "every reachable map and every iteration order", "why_tests_cant": "unbounded histories", "anchors": ["xsync/map.go:Range", "xsync/map.go:Clear"]}
{"id": "C50", "title": "Map is linearizable", "statement": "With any number of goroutines calling Load, Store, LoadOrStore, ComputeIfAbsent, LoadAndDelete and Delete, every execution is linearizable: each call takes effect at one instant between its invocation and response and results agree with a plain map.", "quantifier": "every schedule at the granularity of individual atomic loads, CASes and lock operations", "why_tests_cant": "a violation needs a particular interleaving of single atomic accesses; tests cannot choose them and there are unboundedly many", "anchors": ["xsync/map.go:Map"]}
{"id": "C51", "title": "Map.Range under concurrency", "statement": "A concurrent Range visits no key twice, every (k,v) it passes to f was the current binding of k at some instant during the call, and a key present during the whole call is visited unless f stopped earlier.", "quantifier": "every schedule", "why_tests_cant": "the guarantee relates one Range call to every possible interleaving of updates", "anchors": ["xsync/map.go:Range"]}
{"id": "C52", "title": "Map.ComputeIfPresent loses updates", "statement": "ComputeIfPresent is not an atomic read-modify-write: the value written is f applied to a value the key held at some instant during the call, but other updates in between are overwritten (two concurrent increments can end with one; witness). It never writes to an absent key and reports absence only if the key was absent at some instant during the call.", "quantifier": "every schedule", "why_tests_cant": "needs an interleaving between load and CAS", "anchors": ["xsync/map.go:ComputeIfPresent", "xsync/map.go:tryComputeIfPresent"]}
{"id": "C53", "title": "Map.ComputeIfAbsent call discipline", "statement": "computeFunc runs at most twice in one ComputeIfAbsent call and not at all if the key was found at first look; when loaded=false the returned value is the result of computeFunc installed by this call; when loaded=true the value is one present in the map during the call.", "quantifier": "every schedule", "why_tests_cant": "the second evaluation happens only in particular interleavings", "anchors": ["xsync/map.go:ComputeIfAbsent", "xsync/map.go:tryComputeIfAbsent"]}
{"id": "C54", "title": "Compute callbacks and the map's mutex", "statement": "If computeFunc panics (or calls back into the map needing the lock) while the slow path runs it, the mutex stays locked and every later call that needs the lock blocks forever (witness); on the lock-free path it does not.", "quantifier": "every history", "why_tests_cant": "needs a history that reaches the slow path", "anchors": ["xsync/map.go:ComputeIfAbsent"]}
{"id": "C55", "title": "Map.Clear under concurrency", "statement": "Clear replaces the internal atomic word pair with plain writes; a concurrent reader can observe type word set and data word nil, i.e. crash (witness). If the replacement were atomic, executions with Clear would remain linearizable.", "quantifier": "every schedule", "why_tests_cant": "needs a specific interleaving at word granularity", "anchors": ["xsync/map.go:Clear"]}
{"id": "C56", "title": "Shard count and index", "statement": "NewSharedMap with a block size n in 1..2^31 creates the smallest power of two >= n shards, and every key's shard index is in range, so no operation panics; n = 0 panics; negative n (other than multiples wrapping into range) or n > 2^31 yields zero shards and every later operation panics (witness).", "quantifier": "every int n and every key", "why_tests_cant": "all sizes and keys, uint32 wrap-around", "anchors": ["xsync/shared_map.go:NewSharedMap", "xsync/shared_map.go:getShardBlockSize", "xsync/shared_map.go:GetShard", "xsync/shared_map.go:fnv32", "xsync/shared_map.go:WithShardBlockSize"]}
{"id": "C57", "title": "SharedMap behaves like one map", "statement": "For every shard count and every sequence of Store, MStore, Load, Has, LoadOrStore, ComputeIfAbsent, ComputeIfPresent, Delete, Clear, Range the results equal those of a single plain map; Range visits each key once and stops across shards when f returns false.", "quantifier": "every history and shard count", "why_tests_cant": "unbounded histories, hash collisions", "anchors": ["xsync/shared_map.go:SharedMap"]}
{"id": "C58", "title": "ResourceManager creates once", "statement": "In every schedule, between a successful create for a key and a Remove of that key (or Close), create is never run again for it and all Gets return that same resource; at most one create per key runs at a time; a failed create stores nothing and its error goes to all callers that joined. The same holds for a create that panics or leaves its goroutine (runtime.Goexit): it stores nothing and every caller that joined panics or leaves in the same way.", "quantifier": "every schedule", "why_tests_cant": "a doubled create shows only in particular interleavings of Get, Remove and Close", "anchors": ["xsync/resourcemanager.go:Get"]}
{"id": "C59", "title": "ResourceManager Close and Remove", "statement": "Close closes every resource present exactly once and returns all close errors; Remove reports presence and drops the entry without closing the resource (so a removed resource is never closed by the manager). A Get that begins after Remove has returned may still return the removed resource, if it joins a Get whose result is published but not yet forgotten (witness).", "quantifier": "every history and iteration order", "why_tests_cant": "unbounded histories", "anchors": ["xsync/resourcemanager.go:Close", "xsync/resourcemanager.go:Remove"]}
{"id": "C60", "title": "ResourceManager after Close", "statement": "A Get whose create succeeds after (or concurrently with) Close panics on the nil map while holding the lock and leaves the manager locked, and the new resource is never closed; a create returning (nil,nil) makes Get panic. A Get that begins after Close has returned may return a resource that is already closed (witnesses).", "quantifier": "every schedule of Get against Close", "why_tests_cant": "the panic needs Close to fall between create and the store of its result", "anchors": ["xsync/resourcemanager.go:Get", "xsync/resourcemanager.go:Close"]}
{"id": "C61", "title": "Stream sources", "statement": "Of(xs...) delivers exactly xs in order and closes, and its producer finishes even if nobody reads; From(g) delivers what g sent and closes when g returns; Buffer(n) changes only the capacity (max(n,0)); Empty is closed and delivers nothing.", "quantifier": "every item list, buffer size and schedule", "why_tests_cant": "schedules and lengths", "anchors": ["xstream/xstream.go:Of", "xstream/xstream.go:From", "xstream/xstream.go:Buffer", "xstream/xstream.go:Empty"]}
{"id": "C62", "title": "Distinct", "statement": "Distinct(key) delivers, in arrival order, the first item of each key and nothing else.", "quantifier": "every input, key function and schedule", "why_tests_cant": "they range over all inputs, key functions and schedules", "anchors": ["xstream/xstream.go:Distinct"]}
{"id": "C63", "title": "Skip and Limit", "statement": "Skip(n) delivers all but the first n items; Limit(n) exactly the first min(n,len) items, closing its output exactly once and as soon as n items were delivered, while still draining its source; Skip(n) followed by Limit(n)'s complement partitions the input. Negative arguments panic.", "quantifier": "every n, input and schedule", "why_tests_cant": "double close / early close bugs depend on n versus length", "anchors": ["xstream/xstream.go:Skip", "xstream/xstream.go:Limit"]}
{"id": "C64", "title": "Tail", "statement": "Tail(n) delivers the last min(n,len) items in order; Tail(0) nothing; negative n panics; the source is drained in every case.", "quantifier": "every n, input and schedule", "why_tests_cant": "ring wrap-around at every length", "anchors": ["xstream/xstream.go:Tail", "xstream/ring.go:add", "xstream/ring.go:take"]}
{"id": "C65", "title": "Split and SplitSteam", "statement": "Split(n) delivers consecutive non-empty chunks whose concatenation is the input, all of size n except possibly the last; SplitSteam(n) delivers the same chunks as closed streams, never blocking on a full chunk nor closing twice; n < 1 panics.", "quantifier": "every n, input and schedule", "why_tests_cant": "all lengths relative to n", "anchors": ["xstream/xstream.go:Split", "xstream/xstream.go:SplitSteam"]}
{"id": "C66", "title": "Sort, Reverse, Merge", "statement": "Sort(less) delivers a permutation of the input in which no later item is less than an earlier one (less a strict weak order); Reverse the exact reversal; Merge exactly one slice with all items in order, also for an empty input.", "quantifier": "every input and schedule, every sort.Slice outcome", "why_tests_cant": "they range over all inputs, comparison functions and outcomes of an unstable sort", "anchors": ["xstream/xstream.go:Sort", "xstream/xstream.go:Reverse", "xstream/xstream.go:Merge"]}
{"id": "C67", "title": "Group and GroupBy", "statement": "Group(key) delivers one non-empty slice per distinct key, each holding that key's items in arrival order, in some order; together they are a permutation of the input. GroupBy collects the same map once and caches it.", "quantifier": "every input, key function, map iteration order", "why_tests_cant": "they range over all inputs, key functions and iteration orders of Go maps", "anchors": ["xstream/xstream.go:Group", "xstream/collection.go:GroupBy", "xstream/collection.go:Map"]}
{"id": "C68", "title": "Terminal operations", "statement": "Count is the number of items; Foreach applies f to each item once in order; ForeachOrdered in reverse order; AnyMach/AllMach equal exists/forall and evaluate the predicate only up to the first deciding item; FindFirst/FindLast return the first/last item or ErrNoElement; each of them leaves its source drained (possibly in the background).", "quantifier": "every input and predicate", "why_tests_cant": "they range over all inputs, predicates and positions of the deciding item", "anchors": ["xstream/xstream.go:Count", "xstream/xstream.go:Foreach", "xstream/xstream.go:ForeachOrdered", "xstream/xstream.go:AnyMach", "xstream/xstream.go:AllMach", "xstream/xstream.go:FindFirst", "xstream/xstream.go:FindLast"]}
{"id": "C69", "title": "Peek", "statement": "Peek(f) delivers the input unchanged and calls f exactly once per item in order, all calls completed before the output closes; f for an item runs after the item was handed to the consumer, not before.", "quantifier": "every input and schedule", "why_tests_cant": "the order of hand-over and call must hold in every schedule", "anchors": ["xstream/xstream.go:Peek"]}
{"id": "C70", "title": "Pipelines are schedule independent", "statement": "Any chain of single-goroutine operators, with any buffer sizes and any schedule, delivers the composition of their list functions; no schedule deadlocks while the consumer keeps reading, nothing is sent on a closed channel, no channel is closed twice, and all goroutines end.", "quantifier": "every pipeline, input, capacities and schedule", "why_tests_cant": "unbounded pipelines and schedules", "anchors": ["xstream/xstream.go:Stream"]}
{"id": "C71", "title": "Concat", "statement": "Concat delivers an interleaving of the given streams: each item exactly once, each stream's own order kept, output closed exactly once after all inputs ended.", "quantifier": "every number of streams, inputs and schedule", "why_tests_cant": "the interleaving and the moment of the close depend on the schedule of any number of goroutines", "anchors": ["xstream/xstream.go:Concat"]}
{"id": "C72", "title": "Walk, Map, Filter, FlatMap", "statement": "With w workers Walk(f) delivers a permutation of the concatenation of f's outputs over all items, each item's outputs in order, never more than w calls of f at once, never sending on or closing a closed channel, closing after the last worker; with w=1 (the default) the exact input order is kept. Map/Filter/FlatMap are the corresponding instances; FlatMap drops nil items.", "quantifier": "every input, worker count and schedule", "why_tests_cant": "double close, send after close and lost items show only in particular schedules of the workers", "anchors": ["xstream/xstream.go:Walk", "xstream/xstream.go:Map", "xstream/xstream.go:Filter", "xstream/xstream.go:FlatMap", "xstream/option.go:loadOptions"]}
{"id": "C73", "title": "ParallelFinish", "statement": "ParallelFinish(f) returns only after f has completed for every item, calls f exactly once per item and at most w at once.", "quantifier": "every schedule", "why_tests_cant": "an early return shows only in particular schedules of the workers", "anchors": ["xstream/xstream.go:ParallelFinish"]}
{"id": "C74", "title": "Copy", "statement": "Copy delivers the whole input, in order, on every copy; if every copy is read concurrently it completes; if one copy is read to its end before another is read it can deadlock unless the buffers are large enough (witness).", "quantifier": "every input, set of buffer sizes and schedule", "why_tests_cant": "schedules and buffer sizes", "anchors": ["xstream/xstream.go:Copy"]}
{"id": "C75", "title": "mapreduce.Map output", "statement": "Without cancellation the output channel delivers a permutation of everything mapFunc wrote for all generated items and is then closed exactly once, after all mapFunc calls returned; at most workerSize mapFunc calls run at once.", "quantifier": "every schedule, item list and mapFunc", "why_tests_cant": "lost or doubled values and a double close show only in particular schedules of the workers", "anchors": ["xmapreduce/xmapreduce.go:Map", "xmapreduce/xmapreduce.go:doMap", "xmapreduce/xmapreduce.go:buildSource"]}
{"id": "C76", "title": "mapreduce.Map under cancellation", "statement": "With cancellation at any moment the output delivers a sub-multiset of those values and is closed exactly once; no item is mapped twice; once ctx has ended a call of mapFunc begins only for an item whose goroutine had been started before, so that no more than workerSize calls begin or go on, but such a call can begin even after the output has been closed (witness); a mapFunc blocked in Write when the channel closes panics inside its own goroutine and the panic is swallowed (witness); the generator goroutine can stay blocked forever (witness).", "quantifier": "every schedule and cancellation point", "why_tests_cant": "the cancellation can fall between any two steps of any goroutine", "anchors": ["xmapreduce/xmapreduce.go:doMap", "xbarrier/writebarrier.go:Write", "xtask/do.go:Do"]}
{"id": "C77", "title": "Trim family", "statement": "TrimLeft drops exactly the longest run of leading characters from the cut set (for every byte string) and keeps the rest byte for byte; TrimRight drops exactly the longest such trailing run, and Trim / TrimSpace do both ends (TrimSpace with the whitespace class), for every valid text.", "quantifier": "every string and cut set", "why_tests_cant": "they range over all strings and cut sets, multi-byte characters included", "anchors": ["xstring/xstring.go:Trim", "xstring/xstring.go:TrimLeft", "xstring/xstring.go:TrimRight", "xstring/xstring.go:TrimSpace"]}
{"id": "C78", "title": "SharedMap under concurrency", "statement": "For every schedule of Store, Load, Has, LoadOrStore, ComputeIfAbsent, ComputeIfPresent, Delete and Range calls by any number of goroutines on one SharedMap with any number of shards, each operation on a key takes effect at one instant between its call and its return on a single map of all keys; Range calls f for distinct keys, with values they had during the call, stops after the first false in whatever shard, and otherwise skips only keys absent at some instant during the call; a key only ever lives in its own shard and the code itself never panics.", "quantifier": "every shard count, key, value, callback answer and interleaving, any number of goroutines", "why_tests_cant": "schedules cannot be enumerated by tests", "anchors": ["xsync/shared_map.go:SharedMap", "xsync/shared_map.go:GetShard", "xsync/shared_map.go:Range", "xsync/map.go:Map"]}
{"id": "C79", "title": "SharedMap.Clear under concurrency", "statement": "SharedMap.Clear empties its shards one after another. For every schedule, and every set of keys that live in one shard (so for every single key), Clear and the operations on those keys each take effect at one instant between call and return. For keys in different shards this fails: a Clear can remove a key stored later and keep one stored earlier, which no single instant explains.", "quantifier": "every shard count, set of keys in one shard, and interleaving of any number of goroutines", "why_tests_cant": "schedules cannot be enumerated by tests", "anchors": ["xsync/shared_map.go:Clear", "xsync/shared_map.go:SharedMap", "xsync/map.go:Clear"]}
{"id": "C80", "title": "Pipelines with parallel stages", "statement": "In any pipeline that mixes sequential operators (Distinct, Skip, Limit, Sort, Reverse, Buffer, ...) with Walk, Map, Filter and FlatMap using any numbers of workers, whatever the buffer sizes and the schedule: the consumer receives a result obtained by applying the operators one after the other, where a parallel stage may interleave the outputs of different items (one worker keeps their order); what was received so far is always the beginning of such a result; nothing panics or deadlocks while the consumer reads, every run ends, and then all goroutines have ended, also those behind a Limit that closed early. A terminal operation at the end answers as it does on one of these results.", "quantifier": "every pipeline, input, function, worker count, capacities and schedule", "why_tests_cant": "unbounded pipelines and schedules", "anchors": ["xstream/xstream.go:Walk", "xstream/xstream.go:Map", "xstream/xstream.go:Filter", "xstream/xstream.go:Limit", "xstream/xstream.go:Sort", "xstream/xstream.go:Count", "xstream/option.go:loadOptions"]}
{"id": "C81", "title": "Callbacks that panic in Distinct and Peek", "statement": "A panic of the callback is swallowed by the goroutine pool. If the key function of Distinct panics (or its key cannot be hashed) on item x, the consumer receives exactly the distinct items before x and then a normal end of stream, in every schedule and after finitely many steps: the stream is cut short without any sign of it. If the function of Peek panics on x, the consumer receives the items up to and including x and never sees the stream end. In both cases the items after x are not read: if there are more of them than the source's channel holds, the source's goroutine never ends. Without panics the operators behave as in C62 and C69.", "quantifier": "every input, position of the first panic, channel sizes and schedule", "why_tests_cant": "a test sees one schedule, and a stream that never ends looks like a slow one", "anchors": ["xstream/xstream.go:Distinct", "xstream/xstream.go:Peek", "xstream/xstream.go:startGoroutine"]}
{"id": "C82", "title": "ResourceManager calls return", "statement": "As long as create and the resources' Close methods return and no panic happened while the manager was locked (C60), Get, Remove and Close never deadlock: whenever a call is in progress some call can go on, the calls in progress finish within a number of steps bounded by what has happened before if no new calls come, and when nothing but new calls can happen all have returned. Callbacks must not call back: a Get for the same key made from within create does not return before create does, and while Close closes the resources nobody else gets the lock or looks anything up, so a resource whose Close calls Remove or Close of the manager blocks for ever.", "quantifier": "every interleaving of any number of goroutines, keys, create and Close outcomes", "why_tests_cant": "deadlock freedom and termination are about all schedules and about executions that do not end; a test that hangs or passes shows one of them", "anchors": ["xsync/resourcemanager.go:Get", "xsync/resourcemanager.go:Remove", "xsync/resourcemanager.go:Close"]}
{"id": "C83", "title": "Map calls finish", "statement": "For every schedule of calls of Map's operations (Range and Clear included; Clear's assignment taken as one step) by any number of goroutines: as long as no computeFunc panicked and the functions passed in can return, no state with a call in progress is a deadlock, some call can always go on without a panic. If no new calls come, the calls in progress take a number of steps bounded by the number of calls made so far, whatever the schedule (no compare-and-swap loop goes on for ever), and all of them return.", "quantifier": "every interleaving of any number of goroutines and calls, keys, values and callback answers", "why_tests_cant": "livelock and deadlock freedom are about all schedules and about executions that do not end", "anchors": ["xsync/map.go:Load", "xsync/map.go:Store", "xsync/map.go:LoadOrStore", "xsync/map.go:ComputeIfAbsent", "xsync/map.go:ComputeIfPresent", "xsync/map.go:Delete", "xsync/map.go:Range", "xsync/map.go:Clear", "xsync/map.go:dirtyLocked"]}
{"id": "C84", "title": "SharedMap calls finish", "statement": "For every schedule of calls of SharedMap's operations (Range and Clear included; a shard's Clear taken as one step) by any number of goroutines, on a SharedMap with any number of shards: as long as no computeFunc panicked and the functions passed in can return, some call in progress can always go on without a panic. If no new calls come, the calls in progress take a number of steps bounded by the number of calls made so far and the number of shards, whatever the schedule, and all of them return.", "quantifier": "every shard count and every interleaving of any number of goroutines and calls, keys, values and callback answers", "why_tests_cant": "livelock and deadlock freedom are about all schedules and about executions that do not end", "anchors": ["xsync/shared_map.go:SharedMap", "xsync/shared_map.go:Range", "xsync/shared_map.go:Clear", "xsync/shared_map.go:Store", "xsync/map.go:Map"]}
{"id": "C85", "title": "The codec is safe for concurrent use through the shared byte pools", "statement": "Any number of goroutines may call the Write and Read functions of xbinary at once, each with its own Writer or Reader, while other code uses xbytes. Every call that returns has given its Writer exactly the bytes of the wire format of its own argument, or answers exactly what the format says of the bytes its own Reader delivered, even if the Reader scribbles over the whole slice it is given. A slice returned by ReadBytes belongs to the caller alone: nobody else holds a byte of it, and its contents stay until the caller changes them. All other buffers go back to the pools. A call is never stuck: once its Writer or Reader answers it can return.", "quantifier": "all interleavings of all goroutines at the granularity of single bytes, all behaviours of the Readers, Writers and sync.Pool, all disciplined users of xbytes", "why_tests_cant": "needs two calls to meet on one recycled buffer in the window between Free and the last use of it", "anchors": ["xbinary/xbinary.go:WriteUint16", "xbinary/xbinary.go:ReadUint16", "xbinary/xbinary.go:WriteBool", "xbinary/xbinary.go:ReadBool", "xbinary/xbinary.go:WriteUint32", "xbinary/xbinary.go:ReadUint32", "xbinary/xbinary.go:WriteBytes", "xbinary/xbinary.go:ReadBytes", "xbytes/pool.go:MallocSize", "xbytes/pool.go:Free"]}
{"id": "C86", "title": "Reverse shares memory with its argument and its result without anyone noticing", "statement": "Reverse reads its argument and builds its result without copying, yet strings stay immutable: no string a program has ever changes, whatever calls of Reverse and whatever other code run. A call that returns gives the characters of its argument in reverse order; the argument still is what it was; the result lies in memory nobody had when the call began (or is the empty argument itself) and never changes afterwards. Reverse never indexes out of range, is never stuck, and takes a number of steps proportional to the length of its argument.", "quantifier": "all strings and substrings, all interleavings of any number of calls and of other code at the granularity of single stored bytes", "why_tests_cant": "a store into shared memory shows only if another goroutine looks at the string at that moment, and there are unboundedly many strings and moments", "anchors": ["xstring/xstring.go:Reverse", "internal/hack/xstring.go:StringToBytes", "internal/hack/xstring.go:BytesToString"]}
{"id": "C87", "title": "Every buffer size has one pool", "statement": "However many goroutines call Malloc and Free for the first time at once, all calls for one size use the same pool and calls for different sizes different ones, and the pool makes slices of exactly that size. Each call acts on memory at one instant as C29 and C30 say: Malloc gives the length and capacity asked for, and slices callers hold never overlap as long as they free only what they hold. A freed buffer can be handed to any later Malloc of its size. Looking the pool up never panics and never deadlocks, and in a history with n calls all calls together take a number of steps bounded by a polynomial in n, after which all have returned.", "quantifier": "all sizes and all interleavings of any number of goroutines at the granularity of single accesses to the map of pools", "why_tests_cant": "a second pool for a size, or a pool of the wrong size, would appear only in particular interleavings of first uses", "anchors": ["xbytes/pool.go:Malloc", "xbytes/pool.go:MallocSize", "xbytes/pool.go:Free", "xbytes/pool.go:getOrCreatePool", "xsync/map.go:ComputeIfAbsent"]}
{"id": "C88", "title": "Stream expressions with Concat", "statement": "In any expression built from sources, sequential operators, Walk, Map, Filter, FlatMap and Concat, where each stream is used once and Concat may join any number of streams that themselves come out of such expressions (with further Concats inside), whatever the buffer sizes, worker counts and schedule: the consumer receives a result obtained by applying the operators to what their streams deliver, where Concat delivers every item of every one of its streams exactly once, those of one stream in their order; what was received so far is always the beginning of such a result; nothing panics or deadlocks while the consumer reads, every run ends, and then all goroutines have ended and the stream is closed. A terminal operation answers as it does on one of these results, so Concat(...).Count() is the total number of items.", "quantifier": "every expression tree, input, function, worker count, capacities and schedule", "why_tests_cant": "unbounded trees of goroutines and unbounded schedules", "anchors": ["xstream/xstream.go:Concat", "xstream/xstream.go:Walk", "xstream/xstream.go:Sort", "xstream/xstream.go:Distinct", "xstream/xstream.go:Count"]}
{"id": "C89", "title": "Callbacks and arguments that panic in the caller", "statement": "Foreach, ForeachOrdered, AnyMach, AllMach, Sort, Group and Map of a GroupBy collector run their callback in the calling goroutine: if it panics on item x, the callback was called exactly for the items up to x in the documented order and never again, the panic reaches the caller, and no result and no stream is delivered. ForeachOrdered and Sort have read the stream to its end by then; the others leave the items after x unread and nobody drains them, so that the goroutine of the source never ends if they do not fit into its channel, and ends otherwise. A caller of Map that recovers and calls Map again gets, every time and without any sign of the failure, the groups of the items before x only. Split (n < 1) and Limit (n < 0) panic and leave the stream unread; SplitSteam (n < 1), Tail and Skip (n < 0) panic too but have it drained. Without panics the operations behave as in C66, C67 and C68.", "quantifier": "every input, position of the first panic, argument, channel size and schedule", "why_tests_cant": "a goroutine that stays blocked and a silently shortened map look like success in a test, and depend on how many items follow", "anchors": ["xstream/xstream.go:Foreach", "xstream/xstream.go:ForeachOrdered", "xstream/xstream.go:AnyMach", "xstream/xstream.go:AllMach", "xstream/xstream.go:Sort", "xstream/xstream.go:Group", "xstream/xstream.go:Split", "xstream/xstream.go:Limit", "xstream/collection.go:Map"]}
{"id": "C90", "title": "Inner streams of SplitSteam", "statement": "The streams SplitSteam(n) hands out may be read at any time, in any order, by anybody, or not at all. Whatever the schedule, a reader of the i-th stream receives the i-th chunk of n consecutive items (the last one may be shorter), in order, and then sees the stream end, never earlier. Reading a stream that was handed out never waits for the source, for other inner streams or for the outer stream; leaving inner streams unread never holds up the outer stream. Nothing panics, every run is finite, and when nothing more can happen all chunks were handed out and read completely.", "quantifier": "every input, n >= 1, schedule and order of reading the inner streams", "why_tests_cant": "the moments at which inner streams are filled, handed out, closed and read interleave in unboundedly many ways", "anchors": ["xstream/xstream.go:SplitSteam"]}
{"id": "C91", "title": "One stream with several readers, or used again", "statement": "A Stream may be read in several places: several goroutines may call terminal operations on it, and one operation may follow another on the same Stream. Whatever the schedule, each item is received exactly once, by one reader, in order; the end is seen only when all items have been received, and nobody receives anything afterwards. No operation waits for ever, and in the end all items have been received and all goroutines, the draining ones included, have ended. Each caller's callbacks and results are those of its operations on the items it received. An operation that reads to the end leaves an empty stream for the next one. After FindFirst, AnyMach or AllMach have decided early, the next operation sees an arbitrary selection of the remaining items, in order, because a background goroutine drains the stream at the same time; every selection can happen (Count after FindFirst can return any number from 0 to the number of remaining items).", "quantifier": "every input, channel capacity, number of goroutines, list of operations per goroutine and schedule", "why_tests_cant": "which reader gets which item depends on the schedule; the possible outcomes are exponentially many and a test sees one of them", "anchors": ["xstream/xstream.go:FindFirst", "xstream/xstream.go:AnyMach", "xstream/xstream.go:AllMach", "xstream/xstream.go:FindLast", "xstream/xstream.go:Count", "xstream/xstream.go:Foreach", "xstream/xstream.go:ForeachOrdered", "xstream/xstream.go:Done", "xstream/xstream.go:drain"]}
{"id": "C92", "title": "User functions that panic or leave in DoWithRetry, Do and Worker.Run", "statement": "DoWithRetry: if fn panics at its k-th call (all earlier ones having failed), the panic reaches the caller after exactly k calls: it is neither retried nor turned into an error; otherwise the result is nil from the first call that succeeds, or all the errors in order after times+1 failures. Do: if deferFunc panics, Do does not return but panics, once, with deferFunc's value, also when do had panicked; if deferFunc leaves with runtime.Goexit, Do neither returns nor panics; in neither case does the goroutine running do stay blocked; if Do returns, its result is justified as in C36. Worker.Run: a deferFunc that does not return keeps its slot for ever; after that has happened size times no Run gets a slot again; a deferFunc that panics can always bring the process down; the other tasks behave as in C40 and C41.", "quantifier": "every behaviour of fn, do and deferFunc, every retry count up to the largest int, any number of tasks and contexts, every schedule", "why_tests_cant": "the loss of a slot shows only after as many failures as there are slots; a panic racing with the context is a matter of schedule", "anchors": ["xtask/retry.go:DoWithRetry", "xtask/do.go:Do", "xworker/xworker.go:Run"]}
{"id": "C93", "title": "MStore under concurrency", "statement": "SharedMap.MStore(data), called while any number of goroutines use the map: between its call and its return it stores every entry of data exactly once, one after the other, in an order of Go's choosing, and does nothing else; each of these Stores is atomic as in C78 and C79. When it has returned, a Load of one of its keys finds its value if nobody else wrote to that key meanwhile, whatever happens to other keys. As long as no computeFunc has panicked it cannot deadlock, and it ends within a number of steps known from the past once no new calls come. It is not atomic as a whole: any interleaving of individual Stores in any order is possible, so that another goroutine may find one key and afterwards not find another.", "quantifier": "every data, number of shards, number of goroutines, mix of operations and schedule", "why_tests_cant": "the order of iteration and the interleaving with other goroutines are chosen anew on every run", "anchors": ["xsync/shared_map.go:MStore", "xsync/shared_map.go:Store", "xsync/map.go:Store"]}
{"id": "C94", "title": "xonce operations finish", "statement": "However goroutines are scheduled, Write and Value() of an xonce.Value finish: all calls made so far take together at most seven moves each, and every other step is a Write re-reading the type word. A read never waits. A Write can be kept waiting only by the one Write that has begun to store the first value and has not finished; two steps of that Write's own end the waiting for good, and once a value has been stored no step of anybody is a waiting step. As long as somebody is inside a call, some step that moves somebody is possible without any new call. Write of an xonce.Chan never waits: at most five steps per call, whatever the receivers do.", "quantifier": "every number of goroutines, values (also nil and of different types) and schedule", "why_tests_cant": "a livelock or an endless retry needs a particular interleaving; a test that returns shows one of them", "anchors": ["xonce/value.go:Write", "xonce/value.go:Value", "xonce/chan.go:Write"]}
{"id": "C95", "title": "Map accepts any key a built-in map accepts", "statement": "For every sequence of calls by one goroutine with keys of any dynamic type, Map behaves like a built-in map[interface{}]interface{}: keys that are equal but not identical (0.0 and -0.0) are one key, and a key unequal to itself (NaN) is never found or deleted, so every Store, LoadOrStore and ComputeIfAbsent with it adds a pair that Range shows and only Clear removes. Range shows exactly the pairs present, up to which of several equal keys it shows. A call with a key that cannot be hashed (slice, map, function) panics and does nothing else: the map is unchanged and not left locked, and later calls work.", "quantifier": "all key types with a symmetric and transitive ==, all sets of hashable keys, all sequences of calls including panicking ones, all iteration orders Go may choose", "why_tests_cant": "Tests use strings and ints as keys. Promotion between the two inner maps has to keep equal keys and NaN keys apart in every history.", "anchors": ["xsync/map.go: Load, Store, LoadOrStore, ComputeIfAbsent, ComputeIfPresent, LoadAndDelete, Delete, Clear, Range, missLocked, dirtyLocked"]}
{"id": "C96", "title": "Ring calls return", "statement": "In every interleaving of Add and Take calls on a ring of n places, each call takes at most n + 5 steps, so no call runs for ever. Calls never deadlock, also when the lock lets waiting Adds go before waiting Takes: while a call is unfinished, some unfinished call can move. A call that has the lock never waits; a Take waits only for Adds, an Add only for calls inside. A call alone on the ring returns, on an empty ring too.", "quantifier": "all ring sizes, all numbers of goroutines and calls, all interleavings", "why_tests_cant": "A lost unlock or a loop bound that is wrong for one fill level shows only in particular interleavings, and a test cannot observe that a call never returns.", "anchors": ["xring/xring.go: Add, Take"]}
{"id": "C97", "title": "Worker finishes what it is given", "statement": "In every run of a worker, whatever contexts are cancelled, at most ten steps follow each Run call, so neither Run nor a task goes on by itself for ever. If the worker has at least one slot, no function left through Goexit under a context that is never done and the process has not died of a panic, then, once nothing can move any more, every Run has returned, every task is over (its function and its deferFunc are not executing any more) and all slots are free.", "quantifier": "all sizes, all numbers of Run calls and contexts, all interleavings with cancellations", "why_tests_cant": "A task that is never run, or a Run that is never let through, appears only in particular interleavings of slots and cancellations, and a test cannot observe that something never happens.", "anchors": ["xworker/xworker.go: Run", "xtask/do.go: Do"]}
{"id": "C98", "title": "Stream keys of any kind", "statement": "Distinct, Group and Map of a GroupBy collector compare keys as Go maps do. Distinct delivers, in arrival order, exactly the items whose key equals (==) no earlier item's key. Group delivers, in some order, one slice per such item: the item and the later items with an equal key in arrival order; together the slices are a permutation of the input. Equal but different keys (0.0 and -0.0) form one group; an item whose key differs from itself (NaN) is always delivered by Distinct and is alone in its group. If the key of an item cannot be hashed or the key function panics on it, Distinct delivers what belongs to the items before it and ends normally, Group panics in the caller and delivers nothing, and Map panics once and then returns the groups of the items before it.", "quantifier": "all inputs, key functions, symmetric and transitive ==, sets of hashable keys, buffer sizes, map iteration orders and schedules", "why_tests_cant": "Tests use ints and strings as keys, which are equal to themselves and hashable; the statement ranges over all inputs, keys and schedules.", "anchors": ["xstream/xstream.go: Distinct, Group", "xstream/collection.go: Map"]}
{"id": "C99", "title": "Shared Map with keys of any kind", "statement": "However many goroutines use a Map at once, with keys of any dynamic type: give each call a name for its key, the same name exactly for keys that are equal (==), and a name of its own to every call whose key is not equal to itself (NaN). Then the history is one of a map with names for keys in which every call happens at one instant between its call and its return (with Clear among the calls, as in C55). A call with a key not equal to itself returns what it would return on an empty map. A call with a key that cannot be hashed panics and does nothing else: what is in the map stays, the caller does not hold the mutex; and nothing else makes the map's code panic. As long as no computeFunc has panicked, calls in progress do not deadlock, also after panics of the former kind, and they end within a number of steps bounded by the number of calls made so far. A Range that is not stopped and overlaps no Clear calls f for every pair stored under a key not equal to itself by a call that returned before Range began, as often as it was stored, and no more often than there were calls that could store one.", "quantifier": "all key types with a symmetric and transitive ==, all sets of hashable keys, all numbers of goroutines, all calls, all interleavings and all iteration orders", "why_tests_cant": "Tests use strings and ints as keys and a few goroutines; which of the two inner maps holds a NaN key, and who copies it, depends on the interleaving.", "anchors": ["xsync/map.go: Load, Store, LoadOrStore, ComputeIfAbsent, ComputeIfPresent, LoadAndDelete, Delete, Clear, Range, missLocked, dirtyLocked"]}
{"id": "C100", "title": "No data race in Map", "statement": "Use a Map from any number of goroutines in any way, without Clear: of two accesses to the same memory (the fields of the Map, the Go maps inside it, the entries, the stored values) by two goroutines, of which at least one writes and not both go through sync/atomic, the earlier happens before the later in the sense of the Go memory model. So the runtime never stops the program for a concurrent map read and write, and no value is seen half written. A value that comes out of the Map (a result, an argument of Range's f or of ComputeIfPresent's computeFunc) was put in by a call or by a computeFunc's answer that happens before: what a goroutine wrote before it stored a pointer is visible to whoever loads that pointer. With Clear this fails: Clear assigns the field that the other calls read atomically.", "quantifier": "all numbers of goroutines, all calls with all keys, values and callbacks, all interleavings of single memory accesses, all iteration orders", "why_tests_cant": "The race detector sees only the interleavings that happen; the happens-before order has to be established for every pair of accesses in every execution.", "anchors": ["xsync/map.go: Load, Store, LoadOrStore, ComputeIfAbsent, ComputeIfPresent, LoadAndDelete, Delete, Clear, Range, newEntry, tryStore, unexpungeLocked, storeLocked, tryLoadOrStore, tryComputeIfAbsent, tryComputeIfPresent, delete, missLocked, dirtyLocked, tryExpungeLocked"]}
{"id": "C101", "title": "However finely the accesses of a Map interleave, it is one linearizable map", "statement": "Let every single access to memory that the functions of the Map make - each load and store of a field, each operation on a built-in map, each atomic operation, Lock and Unlock - be a step of its own, and let the goroutines' steps interleave in any way. What the callers see (calls, results, the calls of computeFunc and f, panics) is then still what they can see of a map on which every call takes effect at one moment between its call and its return, with names for keys as in C99; with Clear, the order of calls and returns and what each goroutine does are kept. A call panics exactly if its key cannot be hashed, a key not equal to itself answers as in an empty map, and a Range calls f with every pair stored under such a key before.", "quantifier": "all schedules of single accesses, all programs of calls including Clear, all keys, equalities and hashability, all callback results and panics, all iteration orders of built-in maps", "why_tests_cant": "Tests run few interleavings; that work under the mutex can be taken as one step, although Load and Range read maps obtained from m.read without the mutex, is a fact about all interleavings of accesses", "anchors": ["xsync/map.go: Map, Load, Store, LoadOrStore, ComputeIfAbsent, ComputeIfPresent, LoadAndDelete, Range, Clear, missLocked, dirtyLocked, tryExpungeLocked, unexpungeLocked"]}
{"id": "C102", "title": "However finely the accesses of a Map interleave, its calls end and none waits for ever", "statement": "Let every single access to memory that the functions of the Map make be a step of its own, in any interleaving and with Clear. A history with n calls has at most 16 (n + (n+1) n (20 + 2n + 3n(n+2))) steps, so every loop of compare-and-swap ends. As long as a call is in progress and no computeFunc has panicked, some goroutine can take a step, if the functions passed in can return; hence when nothing more can happen without a new call, all calls have returned, and every history can be brought to that point.", "quantifier": "all schedules of single accesses, all programs of calls including Clear, all keys, equalities and hashability, all callback results and panics of the function given to Range", "why_tests_cant": "A deadlock or a loop without end needs a schedule that a test is unlikely to run, and the absence of one cannot be observed by running", "anchors": ["xsync/map.go: Map, Load, Store, LoadOrStore, ComputeIfAbsent, ComputeIfPresent, LoadAndDelete, Range, Clear, missLocked, dirtyLocked, tryExpungeLocked"]}
{"id": "C103", "title": "Ring and ResourceManager have no data race, and what was done before a value went in is visible to whoever takes it out", "statement": "Use a Ring, or a ResourceManager, from any number of goroutines in any way. Of two accesses by two goroutines to the same memory (the slice, the index and the slots of the Ring; the field and the map of the ResourceManager, a Go map being one place) of which at least one writes, the earlier happens before the later in the sense of the Go memory model. A value in the result of Take, while fewer than 2^63 have been added, was given to an Add whose call happens before that Take returns. A resource that Get returns, or that Close closes, was returned by a call of create for that key, and that return happens before the return of Get, or the call of the resource's Close, also if another goroutine's Get made the call.", "quantifier": "all numbers of goroutines, all calls with all keys and values, all interleavings, all results of create and Close, panics included, all iteration orders", "why_tests_cant": "The race detector sees only the interleavings that happen; the happens-before order has to be established for every pair of accesses in every execution.", "anchors": ["xring/xring.go: NewRing, Add, Take", "xsync/resourcemanager.go: Get, Close, Remove"]}
{"id": "C104", "title": "Memory guarded by a SpinLock has no data race", "statement": "Let any number of goroutines use a SpinLock and memory of their own, and let Unlock be called only by the goroutine that has the lock. If a place is read and written only by the goroutine that has the lock at that moment, no two of its accesses race in the sense of the Go memory model; the lock's own word is never accessed in a way that races, whatever the callers do. What a goroutine did before it called Unlock happens before every later return of Lock and every later TryLock that returned true.", "quantifier": "all numbers of goroutines, all programs of Lock, TryLock, Unlock and accesses, all interleavings", "why_tests_cant": "A lock that excludes but does not order memory passes every test on hardware with strong ordering; the happens-before order has to be shown for all executions.", "anchors": ["xsync/spinlock.go: Lock, TryLock, Unlock"]}
{"id": "C105", "title": "What was done before the Write of a once-Chan or once-Value that succeeds is visible to whoever gets its value", "statement": "Let any number of goroutines call Write on an xonce.Chan, and any number receive from its channel. A receive that gives v comes after, in the sense of the Go memory model, the call of a Write(v) that succeeded; so does a receive that finds the channel closed, and the return of a Write that answers false; and it is the same Write for all of them. One value at most is ever sent and the channel is closed at most once. The same for an xonce.Value: when Value() returns a value that is not nil, the call of the Write with that value happens before, and so it does before the return of every Write that answers false.", "quantifier": "all numbers of goroutines, all values, all interleavings of the atomic and channel operations, down to the two words of atomic.Value", "why_tests_cant": "Missing publication shows only on hardware or compilers that reorder, and only in particular interleavings; the happens-before order has to be shown for every execution.", "anchors": ["xonce/chan.go: Write, Chan", "xonce/value.go: Write, Value"]}
{"id": "C106", "title": "What the function given to Do did is visible after Do, unless ctx ended first", "statement": "The call of Do happens before the start of do. When Do returns an error or nil, or panics, the end of do that this reports happens before the end of Do and before the start of deferFunc, so the caller may read what do wrote; the only other possibility is that Do returns ctx's error and the end of ctx happens before. In that case nothing orders do and the caller, even if do has already ended: reading what do writes is then a data race.", "quantifier": "all behaviours of do (return, panic, runtime.Goexit, no end), all moments at which ctx ends, all interleavings, with and without deferFunc", "why_tests_cant": "Whether the write of a captured variable is ordered before the read after Do depends on the interleaving of caller, goroutine and cancellation.", "anchors": ["xtask/do.go: Do, DoWithTimeout, DoWithoutDefer"]}
{"id": "C107", "title": "What the functions given to Walk, Map, Filter, FlatMap and ParallelFinish did is visible where their results are", "statement": "The call of the function for an item begins after the item was received, in the sense of the Go memory model. Whoever gets an item of the result gets it after the write that put it there, and after all that the same call did before that write; each write is received once. When the result is found closed, and so when ParallelFinish returns, the calls for all items have returned, and all of them happen before: the caller may read what they wrote. The same for the streams given to Concat. With one worker, the default, the calls happen one after the other, in the order of the items, so what they share needs no lock; with two workers a call that has returned and a call that begins later need not be ordered.", "quantifier": "all lists of items, all functions, all options, all interleavings of starter, workers, closing goroutine and reader", "why_tests_cant": "Whether the writes of a worker are ordered before the reads of the caller depends on the interleaving of the wait group, the slots and the result channel; a race detector sees only the executions that happen.", "anchors": ["xstream/xstream.go: Walk, Concat, Map, Filter, FlatMap, ParallelFinish, Done"]}
{"id": "C108", "title": "A Worker's tasks and deferFuncs are ordered as their users expect, unless ctx ends", "statement": "A task given to Worker.Run starts after the call of Run and after Run got its slot, in the sense of the Go memory model. Its deferFunc starts after the task has returned or panicked, so it may read what the task wrote; the only other possibility is that the task's ctx has ended before. With size 1, a Run gets the slot only after the deferFunc of every task that had it before has returned, so each task starts after every earlier task has ended, or that task's ctx has: tasks whose ctx does not end need no lock for what they share. If the ctx of a task ends while it runs, nothing orders it and the next task.", "quantifier": "all numbers of tasks and of goroutines that call Run, all behaviours of the tasks, all moments at which contexts end, all interleavings", "why_tests_cant": "Missing order between two tasks shows only in particular interleavings and only on hardware or compilers that reorder; it has to be shown for every execution.", "anchors": ["xworker/xworker.go: NewWorker, Run", "xtask/do.go: Do"]}
{"id": "C109", "title": "What the functions given to mapreduce.Map did is visible where their results are", "statement": "In Map(ctx, generate, mapper, opts...) the call of mapper for an item starts after all that generate did before it sent the item. A value received from the returned channel was written by a call of mapper, and all that this call did before the Write happens before the receive; the c-th Write that succeeds and the c-th receive belong together. When the reader finds the channel closed, for every item the call of mapper has ended (returned or panicked) or ctx has, and that happens before; so without a cancellation the reader then sees everything all calls did. With one worker the calls come one after the other, each after the end of all earlier ones, also when ctx ends: what they share needs no lock. After a cancellation nothing orders a call that is still running with the close of the channel.", "quantifier": "all lists of items, all behaviours of mapper, all numbers of workers, all moments at which ctx ends, all interleavings of generator, doMap, workers, calls and reader", "why_tests_cant": "Whether the writes of a call are ordered before the reads of the caller depends on the interleaving of wait group, slots, contexts and channels; a race detector sees only the executions that happen.", "anchors": ["xmapreduce/xmapreduce.go: Map, MapStream", "xworker/xworker.go: Run", "xtask/do.go: Do", "xbarrier/writebarrier.go: Write"]}
{"id": "C110", "title": "Channels, locks, wait groups and goroutines are used correctly, except by Write in a cancelled mapreduce.Map", "statement": "However calls are interleaved, whatever user functions do and whenever ctx ends, none of Ring, ResourceManager, once.Chan, Do, Worker, Walk (with Map, Filter, FlatMap and ParallelFinish), Concat and mapreduce.Map closes a channel twice, sends on a closed channel, has more values in a channel than it has room for, receives what was not sent, sees the end of a channel that is open or not empty, calls Done on a wait group after its Wait returned, gives back a lock that is not held, gets a lock for writing while it is held, or for reading while a writer holds it, or starts a goroutine twice. There is one exception: in mapreduce.Map a call of mapper that is in Write when ctx ends can find the output closed, and this send panics in the mapper's goroutine (C76); without a cancellation that cannot happen. With that exception none of the panics that Go raises for these comes from them, and the orders of C103 and C105 to C109 are those Go promises.", "quantifier": "all numbers of goroutines and calls, all sizes and worker counts, all behaviours of the user functions (returns, panics, exits), all moments at which contexts end, all interleavings", "why_tests_cant": "A second close or a send after a close happens in one interleaving of many; tests see the interleavings that happen.", "anchors": ["xring/xring.go: Add, Take", "xsync/resourcemanager.go: Get, Close, Remove", "xonce/chan.go: Write, Chan", "xtask/do.go: Do", "xworker/xworker.go: Run", "xstream/xstream.go: Walk, Concat", "xmapreduce/xmapreduce.go: Map"]}
{"id": "C111", "title": "Memory from xbytes.Malloc passes from one user to the next without a data race", "statement": "Let any number of goroutines call Malloc, MallocSize and Free, read and write the bytes of the slices they hold, split them, forget them and hand them to other goroutines; each slice is used only by the goroutine that holds it, and freed at most once, by that goroutine, which then no longer uses it. Then no two accesses race in the sense of the Go memory model, neither to bytes nor to the slices that are kept in the pools; and when Malloc returns, every earlier access by anyone to the memory it returns, up to its capacity, happens before that return. A slice that is freed twice can be given to two goroutines, whose accesses then race (witness).", "quantifier": "all numbers of goroutines, all sizes and capacities, all choices of the pools (any element put, a new one, elements lost), all interleavings", "why_tests_cant": "Which buffer a pool returns to whom depends on the scheduler and the garbage collector; a race detector sees only the executions that happen.", "anchors": ["xbytes/pool.go: Malloc, MallocSize, Free, getOrCreatePool"]}
{"id": "C112", "title": "Pooled bufio readers and writers pass from one user to the next without a data race", "statement": "If callers use a reader or writer from xio only while it is with them (they got it, or were handed it, and have neither handed it on nor put it) then no two accesses to these objects race. When a Get returns an object, every earlier access to it, by whichever goroutine, happens before. A caller whose own bufio.Reader was returned by Get and put no longer meets the condition: using it races with its next user, whose bytes it may read (witness).", "quantifier": "every number of goroutines, every history of Get, use, handing over and Put, every choice of the pools, every interleaving", "why_tests_cant": "a data race depends on the interleaving, and a test that happens to order the accesses does not see it", "anchors": ["xio/buffer.go: GetBufferReader, GetBufferReaderSize, PutBufferReader, GetBufferWriter, GetBufferWriterSize, PutBufferWriter"]}
{"id": "C113", "title": "What one stream operator did to an item is visible to the next, and the end of a stream is after all the work on it", "statement": "In a chain of streams of one goroutine each (Of or From, then any of Distinct, Buffer, Split, SplitSteam, Sort, Reverse, Merge, Tail, Skip, Limit, Peek, then the reader): what an operator, or a callback it calls, did before it sent an item happens before what the next one does after it has received that item; what it did before it closed its stream happens before what the next one does after it has seen the end. Unless there is a Limit or a Tail(0) in the chain (both end their stream while their input is still being read), everything all the operators and their callbacks ever do happens before the reader sees the end of the last stream. Each send, receive and close is one the channels allow. Two things are not ordered (witnesses): Peek's call of f on an item and what the next operator does with that item, since Peek sends the item before it calls f; and, behind a Limit, calls of f by a Peek before it, which can come after the reader has seen the end.", "quantifier": "every chain of operators, all capacities and items, every interleaving", "why_tests_cant": "Whether f of a Peek runs before or after the next operator depends on the scheduler, and on the machine used for the tests it may always be the same.", "anchors": ["xstream/xstream.go: Of, From, Distinct, Buffer, Split, SplitSteam, Sort, Reverse, Merge, Tail, Skip, Limit, Peek, Foreach"]}
{"id": "C114", "title": "What happened before an item entered Copy is visible to the readers of all the copies", "statement": "Let Copy be given any number of names and buffer sizes and let its streams be read at any pace. That Copy received the k-th item of its source, and so whatever was done to that item before, happens before everything the reader of any copy does from its k-th receive on. When the reader of a copy sees its end, all items have been received from the source. Each send, receive and close is one the channels allow. What the readers of two copies do with the same item is not ordered (witness), so they must not change what an item points to.", "quantifier": "every number of copies, all capacities and items, every interleaving", "why_tests_cant": "The order in which two readers get to an item depends on the scheduler.", "anchors": ["xstream/xstream.go: Copy"]}
{"id": "C115", "title": "No data race in SharedMap", "statement": "However many goroutines call Load, Has, Store, MStore, LoadOrStore, ComputeIfAbsent, ComputeIfPresent, Delete and Range of one SharedMap, and however their single memory accesses interleave, no two of those accesses race in the sense of the Go memory model; and a value that comes out, as a result or as the argument of a callback, was put in by a call, of Store, MStore or LoadOrStore or of a computeFunc, that happens before: what was done before the value went in is visible to whoever gets it. A key's calls all go to one shard. With Clear there are data races (refutation).", "quantifier": "every number of goroutines and shards, every assignment of keys to shards, all keys and values, all interleavings of single accesses", "why_tests_cant": "A data race needs two accesses to meet in one of many interleavings; a race detector sees only the executions that happen.", "anchors": ["xsync/shared_map.go: SharedMap, GetShard, Store, MStore, Load, Has, LoadOrStore, ComputeIfAbsent, ComputeIfPresent, Delete, Range, Clear", "xsync/map.go: Map"]}
{"id": "C116", "title": "The mutexes of Map and SharedMap are used as they have to be", "statement": "However many goroutines call one Map, Clear included, and however their single memory accesses interleave: the mutex is unlocked only by the goroutine that has locked it (so never when it is not locked), it is locked only when nobody holds it and no goroutine waits for it while it holds it itself; a goroutine that begins a call or returns from one does not hold it; the map of new entries, the count of misses, the published map and the Go maps inside are used, replaced and written only by the goroutine that holds it, and entries are made only by it. Whoever holds the mutex is never stuck unless it has panicked, and as long as nobody has panicked the calls in progress are never all stuck. In a SharedMap this holds of every shard and its mutex, and a goroutine holds at most one of them. Callbacks do not themselves call the map, and a goroutine whose callback panicked with the mutex makes no more calls.", "quantifier": "every number of goroutines and shards, all keys, values and callbacks, all interleavings of single accesses", "why_tests_cant": "Unlocking by another goroutine, a missing Unlock on a rare path or an access outside the critical section shows only in particular interleavings; a test runs few of them.", "anchors": ["xsync/map.go: Map, Load, Store, LoadOrStore, ComputeIfAbsent, ComputeIfPresent, LoadAndDelete, Range, Clear", "xsync/shared_map.go: SharedMap"]}
