{"id": "C01", "title": "Stack is a bounded LIFO", "statement": "For every SIZE >= 1 and every sequence of clear/push/pop/top/first/empty/full/size/max_size calls, Stack answers exactly like a mathematical list: top() is the last value pushed and not popped, first() is the oldest one, size/empty/full agree with the list, and an assertion fires exactly when push is called on a full stack or pop/top/first on an empty one. No call reads or writes outside buf or reads an uninitialised cell.", "quantifier": "all element types, all SIZE >= 1, all operation sequences", "why_tests_cant": "the set of call sequences and sizes is infinite; a test fixes both", "anchors": ["stack.hh: Stack"]}
{"id": "C02", "title": "Deque is a bounded double-ended queue", "statement": "For every SIZE >= 1 and every sequence of clear/push_back/push_front/pop_back/pop_front/back/front/empty/full/size/max_size calls, Deque answers exactly like a mathematical list used at both ends, asserts exactly on overflow/underflow, and never touches memory outside buf or an uninitialised cell.", "quantifier": "all element types, all SIZE >= 1, all operation sequences, in particular all wrap-around positions of head and tail", "why_tests_cant": "wrap-around states grow with SIZE and history length; the repository's random test samples ten sizes", "anchors": ["deque.hh: Deque"]}
{"id": "C03", "title": "Delay delays by exactly NUM samples", "statement": "The t-th call of a Delay<TYPE,NUM>(init) returns the input of call t-NUM, and init for the first NUM calls.", "quantifier": "all NUM >= 1, all input histories of any length", "why_tests_cant": "needs all history lengths and all NUM", "anchors": ["delay.hh: Delay"]}
{"id": "C04", "title": "BipBuffer exposes the last NUM values contiguously, oldest first", "statement": "After any history of inputs the returned pointer addresses NUM readable cells inside the object: cell NUM-1 is the newest value, cell 0 the value NUM-1 calls earlier (0 where fewer inputs were given), and operator()() without input returns the same view.", "quantifier": "all NUM >= 1, all input histories", "why_tests_cant": "needs all history lengths; an off-by-one shows only at wrap positions", "anchors": ["bip_buffer.hh: BipBuffer"]}
{"id": "C05", "title": "SWA returns the reduction of the last NUM inputs", "statement": "If OP is associative and commutative and ident is idempotent under OP, then every call of SWA<TYPE,OP,NUM>(ident) returns the OP-reduction of the last NUM inputs, history being padded with ident, for every NUM (not only powers of two), without out-of-bounds tree accesses.", "quantifier": "all NUM >= 1, all such OP, all input histories", "why_tests_cant": "tree shape depends on NUM, positions on history length; both unbounded", "anchors": ["swa.hh: SWA"]}
{"id": "C06", "title": "SWA and SMA4 have no drift", "statement": "For ANY operation OP (no algebraic law assumed, so also rounding floating point addition) the value returned by SWA/SMA4 is a function of the last NUM inputs and the number of calls modulo NUM only: two runs that agree on the last NUM inputs and on the call count modulo NUM return the same value, whatever happened before.", "quantifier": "all OP, all NUM >= 1, all pairs of histories", "why_tests_cant": "quantifies over pairs of unbounded histories", "anchors": ["swa.hh: SWA", "sma.hh: SMA4"]}
{"id": "C07", "title": "MovMin/MovMax return the extremum of the last NUM inputs", "statement": "For every NUM and every history of values of a totally ordered type in which the initial value is the worst one, each call returns the minimum (maximum) of the last min(t,NUM) inputs; the two internal stacks never overflow, underflow or assert.", "quantifier": "all NUM >= 1, all input histories, all total orders with a worst element used as init", "why_tests_cant": "the two-stack amortised scheme has history dependent refill points; correctness and absence of assertion failure needs an inductive invariant", "anchors": ["movext.hh: MovExt, MovMin, MovMax", "delay.hh: Delay", "stack.hh: Stack"]}
{"id": "C08", "title": "MovExt honours an arbitrary initial value", "statement": "For an arbitrary init, MovExt behaves like a window pre-filled with NUM copies of init. (Suspected violated: init is stored only once in the stacks while the delay line holds NUM copies, and MovMax<float> uses numeric_limits::min() which is not the lowest value.)", "quantifier": "all init values, all histories", "why_tests_cant": "failure needs an input equal to init inside the first NUM samples", "anchors": ["movext.hh: MovExt, MovMax"]}
{"id": "C09", "title": "All four SMA variants compute the mean of the last NUM samples", "statement": "In exact arithmetic SMA1, SMA2, SMA3 and SMA4 all return (sum of the last NUM inputs, zero padded)/NUM, and the plain sum for NORM=false; hence they agree with each other on every history. SMA1::abs_dev returns the mean absolute deviation of the current window from the last returned mean.", "quantifier": "all NUM >= 1, all real input histories", "why_tests_cant": "unbounded histories", "anchors": ["sma.hh: SMA1, SMA2, SMA3, SMA4"]}
{"id": "C10", "title": "SMA2 works perfectly with integers", "statement": "With a fixed-width wrapping integer type SMA2<.., NORM=false> equals the sum of the last NUM inputs modulo 2^w for ever (no drift), even after intermediate wrap-around; with signed int the sum is exact and free of signed overflow as long as every difference input-oldest and every window sum is representable.", "quantifier": "all widths, all NUM >= 1, all histories", "why_tests_cant": "drift would show only after unbounded histories", "anchors": ["sma.hh: SMA2", "README.md: sma.hh section"]}
{"id": "C11", "title": "Kahan accumulates exactly in exact arithmetic and with bounded error in floating point", "statement": "In exact arithmetic Kahan's value is init plus the sum of all inputs and the compensation stays zero; in round-to-nearest floating point every step satisfies the compensation identity and the accumulated error is bounded; same() returns true iff adding the input leaves the accumulator state unchanged; kahan_sum folds the whole range exactly once.", "quantifier": "all input sequences of any length", "why_tests_cant": "unbounded sequences and all floating point values", "anchors": ["kahan.hh: Kahan, kahan_sum"]}
{"id": "C12", "title": "quick_sort sorts", "statement": "For every n and every array of a totally (weakly) ordered type quick_sort terminates and leaves a[0..n-1] ascending and a permutation of the original, not touching any cell outside 0..n-1.", "quantifier": "all n, all arrays, all strict weak orders", "why_tests_cant": "n! orders and unbounded n; the repo's test samples random arrays", "anchors": ["quick.hh: quick_sort, QUICK::sort, QUICK::partition, QUICK::insertion"]}
{"id": "C13", "title": "quick_select returns the k-th smallest element", "statement": "For 0 <= k < n quick_select terminates, returns the k-th smallest value, permutes a[0..n-1] so that everything before position k is <= and everything after is >= a[k]; it asserts when n = 0 or k >= n.", "quantifier": "all n, k, arrays, strict weak orders", "why_tests_cant": "as for sorting", "anchors": ["quick.hh: quick_select, QUICK::select"]}
{"id": "C14", "title": "Sorting is memory safe and terminating even for partially ordered data", "statement": "For any comparison that is merely irreflexive (e.g. floating point with NaN, where neither order nor trichotomy holds) quick_sort and quick_select terminate, only access a[0..n-1] and return a permutation of their input.", "quantifier": "all n, all arrays, all irreflexive comparisons", "why_tests_cant": "adversarial comparison results cannot be enumerated", "anchors": ["quick.hh: QUICK::sort, QUICK::select, QUICK::partition"]}
{"id": "C15", "title": "The pivot is the median of five", "statement": "The median helper rearranges five distinct cells so that the middle one holds their median, two cells are not larger and two not smaller, permuting only those five cells; so a partition step of >= 33 elements leaves at least three elements outside each recursive call.", "quantifier": "all arrays, all five distinct positions, all strict weak orders", "why_tests_cant": "needs all 5-element orderings with ties inside arbitrary arrays", "anchors": ["quick.hh: QUICK::median, QUICK::partition"]}
{"id": "C16", "title": "WAV header round trip", "statement": "For every rate, channel count >= 1 and bits in {8,16,32} whose byte rate and file size fit into 31 bits and whose frame size fits into 15 bits, a file produced by WriteWAV (any sequence of write/silence calls, then destruction) is accepted by ReadWAV, which reports the same rate, channels and bits and a frame count equal to the number of frames written (-1 if none).", "quantifier": "all rates, channel counts, supported bit depths, all write sequences", "why_tests_cant": "unbounded parameter combinations and file lengths", "anchors": ["wav.hh: WriteWAV, ReadWAV"]}
{"id": "C17", "title": "WAV sample codes survive a read/write cycle", "statement": "Decoding any 8 or 16 bit sample code and encoding it again yields the same bytes (including -32768 and 0), 32 bit samples are transported bit-exactly, and every real sample in [-1,1] is reproduced within half a quantisation step while values outside are clamped.", "quantifier": "all sample codes, all real sample values, all buffer lengths, channels and strides", "why_tests_cant": "real valued samples are uncountable; codes times strides times lengths unbounded", "anchors": ["wav.hh: ReadWAV::read, WriteWAV::write, readLE, writeLE"]}
{"id": "C18", "title": "A WAV file is readable at every crash point after the header", "statement": "If the program stops at any point after the header was written - between or inside writes, or at any byte of the destructor's patching sequence, executed in program order - the prefix file is accepted by ReadWAV with correct rate, channels and bits, and frames() is either -1 or the exact number of frames written.", "quantifier": "all write histories and all crash points (byte granular)", "why_tests_cant": "every byte prefix of every history", "anchors": ["wav.hh: WriteWAV, ~WriteWAV, ReadWAV"]}
{"id": "C19", "title": "End of a WAV file is observable", "statement": "Reading exactly the frames that are present leaves good() true; requesting any further sample makes good() false, and stays false.", "quantifier": "all files, all ways of splitting the reads", "why_tests_cant": "all read partitions of unbounded files", "anchors": ["wav.hh: ReadWAV::read, ReadWAV::good, ReadWAV::skip"]}
{"id": "C20", "title": "Opening arbitrary bytes as WAV: which files are accepted, and which are undefined behaviour", "statement": "For every byte string the ReadWAV constructor terminates. It accepts exactly the well-formed headers (RIFF, WAVE and fmt tags, PCM or float format with consistent sizes, optional extension and fact chunk, data tag) and then reports the rate, bits, channels and frame count the bytes encode and stands at the first data byte. Its behaviour is undefined exactly if a four-character tag is cut off by the end of the file after a matching beginning, if an int computation of the consistency checks overflows, or if the frames are computed for zero channels. (First stated as: never undefined, and a rejected header is visible through good(). That is false; the refutations are kept.)", "quantifier": "all byte strings", "why_tests_cant": "infinitely many malformed files", "anchors": ["wav.hh: ReadWAV::ReadWAV"]}
{"id": "C21", "title": "Strided and interleaved sample transfer touches only the named cells", "statement": "read(buf,num,stride) stores sample (n,c) at buf[stride*n+c] and changes no other cell; write(buf,num,stride) emits exactly buf[stride*n+c] in frame order; a negative stride means channels(); silence(num) emits num frames that read back as exactly 0; skip(num) followed by read equals discarding num frames.", "quantifier": "all num, channels, strides >= channels, buffers", "why_tests_cant": "unbounded parameters", "anchors": ["wav.hh: ReadWAV::read, WriteWAV::write, WriteWAV::silence, ReadWAV::skip"]}
{"id": "C22", "title": "PNM header round trip", "statement": "For every non-negative width, height, maxval in the int range and mono flag the header written by WritePNM is parsed by ReadPNM to the same values and the read position is exactly at the first pixel byte.", "quantifier": "all widths, heights, maxvals, both formats", "why_tests_cant": "decimal printing/parsing over an unbounded range", "anchors": ["netpbm.hh: WritePNM, ReadPNM"]}
{"id": "C23", "title": "PNM pixel codes survive a read/write cycle", "statement": "For every maxval in 1..255 and every code 0..maxval, linear() followed by srgb() restores the code; srgb is monotone, maps 0 to 0 and 1 to maxval and clamps values outside [0,1].", "quantifier": "all maxval, codes, all real pixel values", "why_tests_cant": "real valued pixels; all maxvals", "anchors": ["netpbm.hh: ReadPNM::linear, WritePNM::srgb"]}
{"id": "C24", "title": "PNM header parsing: termination, comments, which files are accepted, and which are undefined behaviour", "statement": "On every byte string the ReadPNM constructor terminates. It accepts exactly the files that begin with a well-formed header of three numbers up to INT_MAX and reports their values; comment lines directly following the first line feed of a separator are skipped without influence on the parsed values; every other file leaves the three fields unset. Its behaviour is undefined exactly if a number of the header, those before it being in range, is beyond INT_MAX. (First stated with: a rejected header is visible to the caller. That is false; the refutation is kept.)", "quantifier": "all byte strings", "why_tests_cant": "all files", "anchors": ["netpbm.hh: ReadPNM::ReadPNM"]}
{"id": "C25", "title": "Complex is the field of complex numbers", "statement": "In exact arithmetic Complex +,-,*,/ (all overloads and compound assignments), conj, norm and abs are the mathematical operations: (a/b)*b=a for b != 0, norm and abs are multiplicative, z*conj(z)=norm(z), a/=b etc. equal a=a/b, and == / != are complementary componentwise equality.", "quantifier": "all complex operands", "why_tests_cant": "uncountable domain", "anchors": ["complex.hh: Complex and its operators"]}
{"id": "C26", "title": "The FFT computes the discrete Fourier transform", "statement": "For every BINS whose prime factors are all <= 31 and both signs, with exact twiddle factors, FastFourierTransform writes out[k] = sum_n in[n]*exp(SIGN*2*pi*i*n*k/BINS) for every input; this covers every radix kernel (2,3,4,5,7,8,11,13,17,19,23,29,31) and every mixed-radix recursion.", "quantifier": "all supported BINS, both signs, all inputs", "why_tests_cant": "infinitely many sizes and inputs", "anchors": ["fft.hh: FastFourierTransform, FFT::Dit, FFT::split"]}
{"id": "C27", "title": "Forward and backward FFT are inverse up to BINS", "statement": "Applying FastFourierTransform<N,T,-1> and then <N,T,1> (or the reverse) multiplies every input by N; Parseval's identity holds.", "quantifier": "all supported N, all inputs", "why_tests_cant": "as above", "anchors": ["fft.hh: FastFourierTransform"]}
{"id": "C28", "title": "The FFT stays inside its arrays and covers the output", "statement": "For every supported BINS the transform reads only in[0..BINS-1] and factors[0..BINS-1], writes each of out[0..BINS-1] and nothing else, and never reads an out cell it has not written.", "quantifier": "all supported BINS", "why_tests_cant": "all sizes; strided recursive index arithmetic", "anchors": ["fft.hh: FFT::Dit::dit"]}
{"id": "C29", "title": "FFT radix selection terminates exactly on 31-smooth sizes", "statement": "split(BINS) is 1 only for BINS = 1 or for BINS without prime factor <= 31; otherwise it divides BINS and is a supported radix, so template recursion Dit<split(N),N> succeeds iff all prime factors are <= 31.", "quantifier": "all BINS in 1..2^31-1", "why_tests_cant": "2^31 template instantiations", "anchors": ["fft.hh: FFT::split, pow2, pow4, pow8"]}
{"id": "C30", "title": "RealToHalfComplexTransform yields the half spectrum", "statement": "For even BINS with BINS/2 supported and every real input, out[k] for 0<k<BINS/2 is the k-th DFT bin of the real sequence, and out[0], out[BINS/2] are half the DC and Nyquist bins.", "quantifier": "all supported even BINS, all real inputs", "why_tests_cant": "all sizes and inputs", "anchors": ["fft.hh: RealToHalfComplexTransform"]}
{"id": "C31", "title": "Frequency-domain zero padding is band-limited interpolation", "statement": "For even INPUT and 2*OUTPUT >= 3*INPUT FDZP returns, on every call and independent of earlier calls, the trigonometric interpolation polynomial of the input (Nyquist bin split evenly) sampled at OUTPUT points; in particular real input gives real output and if INPUT divides OUTPUT the input samples are reproduced.", "quantifier": "all such sizes, all inputs, all call histories", "why_tests_cant": "all sizes, inputs, histories", "anchors": ["fdzp.hh: FDZP"]}
{"id": "C32", "title": "Zero padding interpolates odd sizes and small ratios too", "statement": "FDZP is band-limited interpolation for every INPUT < OUTPUT admitted by its static_assert. (Suspected violated: odd INPUT leaves the most negative frequency bin in place, and OUTPUT < 1.5*INPUT overwrites bins before they are moved.)", "quantifier": "all INPUT < OUTPUT", "why_tests_cant": "only particular sizes fail, and only between the original sample points", "anchors": ["fdzp.hh: FDZP::operator()"]}
{"id": "C33", "title": "UnitCircle approximates sine and cosine on the whole circle", "statement": "For every N >= 1 and |n| <= N with 8*|n| and 8*N in int range the argument reduction is exact, the kernel argument stays within [-pi/4,pi/4], no int overflow occurs, and in exact arithmetic |cos(n,N)-cos(2*pi*n/N)| and |sin(n,N)-sin(2*pi*n/N)| are below 1e-16.", "quantifier": "all N, n", "why_tests_cant": "the test stops at N = 5000; 2^55 pairs exist", "anchors": ["unit_circle.hh: UnitCircle"]}
{"id": "C34", "title": "UnitCircle symmetry", "statement": "Whenever 8n is not an odd multiple of N, cos is even and sin is odd in n, exactly, for every rounding that commutes with sign change (at odd eighths of a turn the two signs use different kernels and the exact symmetry fails); sin(n,N)^2+cos(n,N)^2 is within 4e-16 of one in exact arithmetic; and at whole quarter turns the values are exactly -1, 0 or 1.", "quantifier": "all N, n", "why_tests_cant": "as above", "anchors": ["unit_circle.hh: UnitCircle"]}
{"id": "C35", "title": "atan2 returns the angle of (x,y)", "statement": "For all real x,y not both zero atan2(y,x) is within 1e-15 of the angle in (-pi,pi] with cos and sin proportional to x and y, is odd in y for y != 0, and has the sign of y.", "quantifier": "all real x,y", "why_tests_cant": "uncountable domain", "anchors": ["atan2.hh: atan_kernel, atan_approx, atan, atan2"]}
{"id": "C36", "title": "atan2 keeps the sign of y under underflow", "statement": "In floating point atan2(y,x) has the sign of y for every finite non-zero y. (Suspected violated: y/x can underflow to zero for x < 0, y < 0.)", "quantifier": "all floating point pairs", "why_tests_cant": "2^128 pairs; failing ones are extreme", "anchors": ["atan2.hh: atan2"]}
{"id": "C37", "title": "CORDIC atan2 never overflows and is accurate to 1 LSB at full range", "statement": "For 8 and 16 bit TYPE and every x,y all intermediates fit in int; for every direction n the value computed for the full-range vector (rounded cos, sin) is within 1 of n modulo 2^BITS.", "quantifier": "all x,y (2^16 resp. 2^32 pairs), all n", "why_tests_cant": "2^32 pairs for the safety part", "anchors": ["cordic.hh: CORDIC::atan2"]}
{"id": "C38", "title": "ldexp multiplies by a power of two", "statement": "DSP::ldexp(x,n) equals x*2^n in exact arithmetic for |n| <= 255; beyond that the shift count of 1<<(|n|/8) reaches the width of int.", "quantifier": "all x, all n", "why_tests_cant": "domain size; the failing range is outside usual tests", "anchors": ["exp.hh: ldexp"]}
{"id": "C39", "title": "exp10 and idecibel approximate powers of ten", "statement": "In exact arithmetic exp10(x) has relative error below 1e-15 for every |x| <= 74, idecibel(dB)=exp10(dB/10).", "quantifier": "all real x in range", "why_tests_cant": "uncountable domain", "anchors": ["exp.hh: exp10", "decibel.hh: idecibel"]}
{"id": "C40", "title": "decibel approximates 10*log10", "statement": "In exact arithmetic decibel(1)=0, decibel is sign-correct and strictly increasing on positive arguments and |decibel(v)-10*log10(v)| <= 1e-19 for every v in [1e-30,1e30] and <= 4e-5 for every v in [1e-300,1e300].", "quantifier": "all positive v", "why_tests_cant": "uncountable domain", "anchors": ["decibel.hh: decibel"]}
{"id": "C41", "title": "Constants are correctly truncated", "statement": "Each literal in const.hh differs from the named mathematical constant by less than one unit in its last printed decimal.", "quantifier": "the nine constants", "why_tests_cant": "tests compare against float/double only; the literals carry 67 digits", "anchors": ["const.hh: Const"]}
{"id": "C42", "title": "Biquad is the linear time-invariant difference equation of its coefficients", "statement": "Every output history of Biquad satisfies y[n]=(b0 x[n]+b1 x[n-1]+b2 x[n-2]-a1 y[n-1]-a2 y[n-2])/a0 with zero initial state, is linear and time-invariant in the input, and BiquadCascade is the composition of its sections.", "quantifier": "all coefficient sets, all input histories", "why_tests_cant": "unbounded histories over the reals", "anchors": ["biquad.hh: Biquad, BiquadCascade"]}
{"id": "C43", "title": "Biquad designs have the advertised gains", "statement": "For 0<n<N/2 and Q>0 (exact trigonometry): lowpass has gain 1 at DC and 0 at Nyquist, highpass the reverse, lowpass/highpass at Q=1/sqrt 2 have half power gain at the cutoff, notch has gain 0 at n/N and 1 at DC and Nyquist, bandpass gain 1 at n/N and 0 at DC and Nyquist, allpass has modulus 1 at every frequency.", "quantifier": "all n,N,Q and all frequencies", "why_tests_cant": "all designs", "anchors": ["biquad.hh: lowpass, highpass, notch, bandpass, allpass"]}
{"id": "C44", "title": "Biquad designs are stable", "statement": "For 0<n<N/2 and Q>0 every designed section has its poles strictly inside the unit circle, so a bounded input yields a bounded output and the response to a constant input converges to gain(DC) times the constant.", "quantifier": "all designs, all bounded input histories", "why_tests_cant": "limits over infinite histories", "anchors": ["biquad.hh: Biquad, BiquadCascade"]}
{"id": "C45", "title": "BlockDC removes a constant and passes Nyquist", "statement": "For samples(s), s>=1, the response to a constant input c is c*b*a^t and tends to zero, the gain at Nyquist is 1, and bounded inputs give bounded outputs.", "quantifier": "all s, all histories", "why_tests_cant": "limits over infinite histories", "anchors": ["blockdc.hh: BlockDC"]}
{"id": "C46", "title": "EMA is a convex average", "statement": "For alpha in [0,1] every EMA and EMACascade output lies between the minimum and maximum of the initial value and all inputs so far, has the closed exponential form, and converges to a constant input when 0<alpha.", "quantifier": "all histories, alphas, orders", "why_tests_cant": "unbounded histories", "anchors": ["ema.hh: EMA, EMACascade"]}
{"id": "C47", "title": "EMA::cutoff places the half-power point at n/N", "statement": "For 0<n<=N/2 the alpha chosen by cutoff(n,N) (exact cosine) lies in (0,1] and the filter's power gain at angular frequency 2*pi*n/N is exactly 1/2.", "quantifier": "all n,N", "why_tests_cant": "all designs", "anchors": ["ema.hh: EMA::cutoff, cutoff_alpha"]}
{"id": "C48", "title": "Integrator and Differentiator are inverse prefix sum and difference", "statement": "Integrator returns init plus the running sum, Differentiator the successive differences, and each undoes the other on every history, in exact arithmetic and in modular integer arithmetic.", "quantifier": "all histories, all abelian groups", "why_tests_cant": "unbounded histories", "anchors": ["calculus.hh: Integrator, Differentiator"]}
{"id": "C49", "title": "Phasor stays on the unit circle and rotates uniformly", "statement": "The t-th value returned after reset is exp(i*t*arg(delta)) in exact arithmetic, has modulus one even if delta itself is not exactly on the unit circle, and with omega(n,N) it is N-periodic for exact trigonometry.", "quantifier": "all call counts, all omega", "why_tests_cant": "unbounded call counts", "anchors": ["phasor.hh: Phasor"]}
{"id": "C50", "title": "CDC is a decimating Fs/4 down-converter", "statement": "For every TAPS = 4K+1, K>=1, output t of CDC equals i times the half-band low-pass (windowed coefficients) of x[n]*exp(-i*pi*n/2), evaluated at every second sample, zero history before the first call.", "quantifier": "all K, all coefficient values, all input histories", "why_tests_cant": "unbounded histories; hand-folded coefficient symmetry", "anchors": ["cdc.hh: CDC"]}
{"id": "C51", "title": "Hilbert returns the delayed signal and its windowed Hilbert transform", "statement": "For every TAPS=4K+1 the real part is reco times the input delayed, the imaginary part the convolution with the odd-tap antisymmetric windowed Hilbert kernel at the same delay.", "quantifier": "all K, all histories", "why_tests_cant": "unbounded histories", "anchors": ["hilbert.hh: Hilbert"]}
{"id": "C52", "title": "FM demodulators recover the instantaneous frequency", "statement": "For a constant-modulus input rotating by phi per sample with |phi|<pi, FMD1, FMD2 and FMD3 return phi/(pi*bw), FMD4 and FMD5 return sin(phi)/(pi*bw); FMD1..3 are invariant under positive amplitude changes and FMD1's output always lies within [-1/bw,1/bw].", "quantifier": "all phi, amplitudes, histories", "why_tests_cant": "uncountable domain and unbounded histories", "anchors": ["fmd.hh: FMD1, FMD2, FMD3, FMD4, FMD5"]}
{"id": "C53", "title": "AM demodulator normalises by a clamped envelope", "statement": "For every history the envelope estimate stays in [lo,hi] (lo<=hi), so for lo>0 the output is finite; for a constant-amplitude input A in [lo,hi] with attack and decay in (0,1] the output tends to 1; index() inverts modulation (1+m*s)/(1+m) to s when the envelope has settled at the peak.", "quantifier": "all histories", "why_tests_cant": "unbounded histories", "anchors": ["amd.hh: AMD1"]}
{"id": "C54", "title": "NormalizeSine output is bounded", "statement": "For samples(s), s>=2, and every history the divisor is positive and |output| <= sqrt(s/2).", "quantifier": "all s >= 2, all histories", "why_tests_cant": "unbounded histories", "anchors": ["normalize.hh: NormalizeSine, NormalizeIQ"]}
{"id": "C55", "title": "Coeffs tabulates and normalises", "statement": "Coeffs stores func(n,TAPS) (or the product of two functions), operator()(n) is 0 outside 0..TAPS-1, and normalize(d) with non-zero sum makes the absolute value of the coefficient sum 1/|d| and preserves all ratios.", "quantifier": "all TAPS, functions, divisors", "why_tests_cant": "all functions", "anchors": ["coeffs.hh: Coeffs"]}
{"id": "C56", "title": "Window functions are symmetric, bounded and peak in the middle", "statement": "With exact trigonometry Rect, Hann, Hamming, Lanczos, Blackman, Gauss and Kaiser satisfy w(n,N)=w(N-1-n,N) for 0<=n<N, N>=2, take values in [0,1] (Kaiser in (0,1]), and equal 1 at the centre of odd N; Hann vanishes at both ends.", "quantifier": "all N >= 2, 0 <= n < N", "why_tests_cant": "all N", "anchors": ["window.hh: Rect, Hann, Hamming, Lanczos, Blackman, Gauss, Kaiser"]}
{"id": "C57", "title": "Integer-ratio filters equal their floating point cutoffs", "statement": "With exact trigonometry LowPass2(num,den) equals LowPass(num/den) and HighPass2(num,den) equals HighPass(num/den) for all n,N, and the UnitCircle arguments stay in its valid domain although C++ % truncates towards zero.", "quantifier": "all num, den, n, N without int overflow", "why_tests_cant": "all integer parameters", "anchors": ["filter.hh: LowPass, LowPass2, HighPass, HighPass2"]}
{"id": "C58", "title": "FIR prototypes are linear phase and complementary", "statement": "LowPass, LowPass2, HighPass, HighPass2, BandPass are symmetric and HilbertTransform antisymmetric about (N-1)/2; BandPass(c0,c1)=LowPass(c1)-LowPass(c0); for odd N HighPass is a unit impulse minus LowPass.", "quantifier": "all n,N, cutoffs", "why_tests_cant": "all parameters", "anchors": ["filter.hh"]}
{"id": "C59", "title": "SimpleLinearRegression minimises the squared error", "statement": "For every LEN>=2 and data with not all x equal, slope() and yint() minimise sum (y_i-(a+b x_i))^2 uniquely, collinear data are recovered exactly, operator()(xint()) = 0 when the slope is non-zero, and the uniform-grid constructor agrees with the general one.", "quantifier": "all lengths, all real data", "why_tests_cant": "uncountable data", "anchors": ["regression.hh: SimpleLinearRegression"]}
{"id": "C60", "title": "Theil-Sen computes the median of pairwise slopes", "statement": "For LEN <= LEN_MAX with at least two distinct x, slope() is the element of rank floor(count/2) of all pairwise slopes, yint() the median of y_i - slope*x_i; no array is overrun; data in which more than half of the pairs lie on one line return that slope exactly.", "quantifier": "all LEN, data", "why_tests_cant": "unbounded data", "anchors": ["theil_sen.hh: TheilSenEstimator", "quick.hh: quick_select"]}
{"id": "C61", "title": "Repeated median has 50% breakdown", "statement": "For LEN <= SIZE points with pairwise distinct x, if strictly more than LEN/2+1 points lie on one line then both estimators return exactly its slope and intercept whatever the other points are.", "quantifier": "all LEN, all outlier positions and values", "why_tests_cant": "uncountable outliers", "anchors": ["repeated_median.hh: RepeatedMedianEstimator, RepeatedMedianEstimator2"]}
{"id": "C62", "title": "Repeated median never overruns its buffers", "statement": "compute() accesses only inner_[0..SIZE-2], outer_[0..SIZE-1], x[0..LEN-1], y[0..LEN-1] for all data. (Suspected violated for NaN in x: x[i]!=x[i] holds and SIZE values are stored into SIZE-1 cells.)", "quantifier": "all data including unordered values", "why_tests_cant": "needs NaN in a full-size data set", "anchors": ["repeated_median.hh: compute"]}
{"id": "C63", "title": "Natural cubic spline interpolates, is twice continuously differentiable and natural", "statement": "For every KNOTS>=3 and every data set: the spline takes the knot values, first and second derivatives agree at interior knots, the second derivative vanishes at both ends, linear data are reproduced, evaluation outside continues the end segments, and for every x within int range only valid segments are indexed.", "quantifier": "all KNOTS, data, x0, dx != 0, strides", "why_tests_cant": "all sizes and real data", "anchors": ["spline.hh: UniformNaturalCubicSpline"]}
{"id": "C64", "title": "Cubic Hermite splines interpolate and are continuously differentiable", "statement": "For n>=3 both eval overloads return Y[k] at knot k, are C1 at interior knots, reproduce straight lines, and never read outside X[0..n-1], Y[0..n-1]. (n=2 suspected to read out of bounds.)", "quantifier": "all n, data, x", "why_tests_cant": "all sizes and real data", "anchors": ["spline.hh: CubicHermiteSpline"]}
{"id": "C65", "title": "Resampler stays inside its buffers", "statement": "For every samples, stride>=1 and diff with rate+diff>0 and positions that fit int, Resampler reads only input[0..samples-1]*stride, writes only outputs (TAPS-1)/2 .. , each at most once, and leaves others unchanged.", "quantifier": "all sizes, diffs", "why_tests_cant": "float dependent indices", "anchors": ["resampler.hh: Resampler::operator()"]}
{"id": "C66", "title": "Resampler2 keeps its phase bounded and its rate exact", "statement": "For |diff|<rate every call terminates, the phase stays in a fixed interval, and after any history of constant-diff calls outputs*(1-diff/rate) = inputs - phase, so the long-run rate is exact. For diff >= rate a call never returns.", "quantifier": "all histories, all diffs", "why_tests_cant": "unbounded histories", "anchors": ["resampler.hh: Resampler2::operator()"]}
{"id": "C67", "title": "NLMS corrects the error by exactly mu and never moves away from the solution", "statement": "After a call with non-zero input power the error of the updated filter on the same window and target is (1-mu) times the returned error; with 0<=mu<=2 and targets produced by a fixed filter of the same length the distance of the coefficients to it never increases, on every history. With zero power the filter is unchanged.", "quantifier": "all SIZE, histories, mu", "why_tests_cant": "unbounded histories", "anchors": ["lms.hh: NLMS"]}
{"id": "C68", "title": "NCLMS does the same for complex signals", "statement": "As for NLMS with complex samples: a-posteriori error is (1-mu) times the a-priori error and the distance to a fixed solution never increases.", "quantifier": "all SIZE, histories, mu", "why_tests_cant": "unbounded histories", "anchors": ["lms.hh: NCLMS"]}
{"id": "C69", "title": "Schmitt trigger has hysteresis", "statement": "For low<=high the output is true iff the most recent input outside [low,high] was above high (initial state if there was none); inputs inside [low,high] never change it.", "quantifier": "all histories, thresholds", "why_tests_cant": "unbounded histories", "anchors": ["trigger.hh: SchmittTrigger"]}
{"id": "C70", "title": "Edge triggers fire exactly on edges", "statement": "RisingEdgeTrigger returns true exactly at calls whose input is true while the previous one (initially the constructor argument) was false, FallingEdgeTrigger dually; between two rising edges there is exactly one falling edge.", "quantifier": "all histories", "why_tests_cant": "unbounded histories", "anchors": ["trigger.hh: RisingEdgeTrigger, FallingEdgeTrigger"]}
{"id": "C71", "title": "Scalar helpers", "statement": "clamp(x,a,b) for a<=b is the projection onto [a,b]; lerp(a,b,0)=a, lerp(a,b,1)=b and stays between a and b; signum is the sign; sinc is even, 1 at 0, 0 at other integers and bounded by 1; normal_pdf is even about m and maximal there.", "quantifier": "all real arguments", "why_tests_cant": "uncountable domain", "anchors": ["utils.hh: signum, lerp, clamp, sinc, delta, normal_pdf"]}
{"id": "C72", "title": "End of a PNM file is observable", "statement": "After opening any accepted file, reading num pixels leaves good() true if and only if all of them are present in the file, and then the stream has advanced by exactly their size.", "quantifier": "all files, buffers, counts and strides", "why_tests_cant": "all files", "anchors": ["netpbm.hh: ReadPNM::read, ReadPNM::good"]}
{"id": "C73", "title": "BiquadCascade is a Butterworth filter", "statement": "For 0<n<N/2 (exact trigonometry) and every NUM the low-pass cascade has power gain 1/(1+(tan(w/2)/tan(pi n/N))^(4 NUM)) at angular frequency w, the high-pass cascade the complementary power, so both pass exactly half the power at n/N.", "quantifier": "all n, N, NUM, all frequencies, all initial states", "why_tests_cant": "uncountable domain; a wrong section quality still looks like a low-pass", "anchors": ["biquad.hh: BiquadCascade::lowpass, BiquadCascade::highpass"]}
{"id": "C74", "title": "CORDIC atan2 error over all vectors", "statement": "For every 16 bit vector of length r>=150 the result differs from the true angle, in units of the type modulo a turn, by at most 3.32+73014/r; for every nonzero 8 bit vector by at most 15, and by at most 2 if a component is at least 24 in magnitude.", "quantifier": "all 2^32 resp. 2^16 vectors", "why_tests_cant": "the test only tries full-range vectors; 2^32 pairs", "anchors": ["cordic.hh: CORDIC::atan2"]}
{"id": "C75", "title": "UnitCircle in floating point", "statement": "With every operation, literal and int conversion rounded with relative error u (u<=1e-7), cos(n,N) and sin(n,N) are within 8u+3e-17 of the exact values: within 1e-15 for double and 5e-7 for float.", "quantifier": "all N with 8N an int, all |n|<=N, all roundings", "why_tests_cant": "2^28 values of N times N angles; the reference in a test is itself rounded", "anchors": ["unit_circle.hh: UnitCircle::cos, UnitCircle::sin, UnitCircle::rad"]}
{"id": "C76", "title": "Rounding error of the Fourier transform", "statement": "With rounded arithmetic and rounded tables every bin of the transform of BINS<=2^m points of modulus at most X differs from the exact discrete Fourier transform by at most ((1+h)^(11m)-1)*BINS*X; for float and double with the UnitCircle tables by at most 100*m*u*BINS*X.", "quantifier": "all 31-smooth sizes, both signs, all inputs, all roundings of relative error u", "why_tests_cant": "error bounds over all inputs and sizes cannot be sampled", "anchors": ["fft.hh: FastFourierTransform, Dit; unit_circle.hh"]}
{"id": "C77", "title": "Phasor phase error in floating point", "statement": "An oscillator computed with rounded operations of relative error u whose delta is within eta of exp(i a) is after t calls within t(20u+3eta) of exp(i a t), with no assumption that errors cancel; with omega(n,N) from the rounded UnitCircle within 60ut.", "quantifier": "all roundings, frequencies and call counts", "why_tests_cant": "the bound must hold after arbitrarily many calls for every rounding pattern", "anchors": ["phasor.hh: Phasor::operator(), Phasor::omega; unit_circle.hh; complex.hh: operator*, abs"]}
{"id": "C78", "title": "Rounding error of the moving averages", "statement": "In radix-2 floating point SMA4 is within ((1+u)^(ceil(log2 NUM)+1)-1) of the mean of magnitudes of its window and SMA1 within ((1+u)^NUM-1), after any number of inputs; SMA2's running sum errs by at most ((1+u)^t-1)(NUM+3)X after t inputs bounded by X, and it as well as SMA3 can stay wrong for ever after one large input.", "quantifier": "all window lengths, precisions, finite inputs and histories", "why_tests_cant": "drift appears only after long histories; bounds quantify over all real inputs", "anchors": ["sma.hh: SMA1, SMA2, SMA3, SMA4; swa.hh: SWA; delay.hh: Delay"]}
{"id": "C79", "title": "Fast convolution", "statement": "Transforming two inputs, multiplying bin by bin and transforming back with the other sign gives BINS times the circular convolution, and with enough zero padding BINS times the linear one; rotating the input by m places turns bin k by exp(SIGN 2 pi i m k/BINS).", "quantifier": "all supported sizes, both signs, all inputs", "why_tests_cant": "infinite domain", "anchors": ["fft.hh: FastFourierTransform; complex.hh: operator*"]}
{"id": "C80", "title": "The natural spline has minimal curvature", "statement": "Between the first and the last knot no twice continuously differentiable function through the same points has a smaller integral of the squared second derivative than the code's curve, only the curve itself attains it, and every natural cubic spline through the points is that curve.", "quantifier": "all knot counts, values, strides, positions and all competing functions", "why_tests_cant": "quantifies over all functions", "anchors": ["spline.hh: UniformNaturalCubicSpline"]}
{"id": "C81", "title": "Rounding errors of the recursive filters", "statement": "Biquad and BiquadCascade with stable coefficients, EMA and BlockDC computed in rounded arithmetic stay for ever within K(uX+e) of the exact filter (explicitly (10uX+8e)/alpha for EMA, (24uX+10e)/(1-a) for BlockDC); Integrator has no such bound: fed with ones it stops at 2^precision.", "quantifier": "all stable coefficients, input signals bounded by X, numbers of calls, roundings of relative error u", "why_tests_cant": "feedback of rounding errors over unbounded time", "anchors": ["biquad.hh: Biquad, BiquadCascade; ema.hh: EMA; blockdc.hh: BlockDC; calculus.hh: Integrator"]}
{"id": "C82", "title": "Frequency response of Hilbert and CDC", "statement": "A sinusoid of any frequency v comes out of Hilbert delayed in the real part and exactly a quarter turn behind with gain A(v) in the imaginary part, A odd, zero at 0 and pi, symmetric about pi/2, and for 33 taps and the default window within 0.001 of 1 on [0.5, pi-0.5]; output t of CDC is for every input half the output 2t+2 of Hilbert turned by a power of i.", "quantifier": "all tap counts 4K+1, window parameters, frequencies, phases and inputs", "why_tests_cant": "uncountable domain; relates two independently written classes", "anchors": ["hilbert.hh: Hilbert; cdc.hh: CDC; filter.hh: HilbertTransform, LowPass2; window.hh: Kaiser"]}
{"id": "C83", "title": "Complex arithmetic in floating point", "statement": "Rounded complex products are within 3u, quotients within 8u and absolute values within 3u of the exact ones relative to their modulus when nothing overflows or underflows; single components of a product can be completely wrong, and in double quotients and absolute values fail already at 2^600 and 2^-600.", "quantifier": "all operands, all roundings of relative error u", "why_tests_cant": "error bounds over all operands cannot be sampled", "anchors": ["complex.hh: operator*, operator/, abs, norm"]}
{"id": "C84", "title": "Where the cutoff of EMACascade is", "statement": "EMA cutoff(n,N) has power gain 1/(1+(sin(t/2)/sin(pi n/N))^2) at every frequency t, EMACascade the ORDER-th power of it with n replaced by m=nearbyint(n/factor); half of the power passes at exactly one frequency between (n-1/3)(1-(pi m/N)^2/6) and n+1/3, not in general at n; for m>=N the design breaks down: cutoff(21,100) with 16 sections gives a filter that ignores its input.", "quantifier": "all n, N, orders 1 to 16, frequencies and states", "why_tests_cant": "uncountable domain; the wrap-around only shows for particular n, N and ORDER", "anchors": ["ema.hh: EMA::cutoff, EMACascade::cutoff, EMACascade::cascade_factor"]}
{"id": "C85", "title": "Objects as their constructors leave them, and files that could not be opened", "statement": "A freshly constructed EMA, EMACascade (any order), Biquad and BiquadCascade (any number of sections) returns every representable input unchanged, for real and complex samples and in any arithmetic that represents 0 and 1; in binary64 one infinite sample makes it return NaN for ever (refuted: that it passes everything). A fresh BlockDC returns half the difference of consecutive samples, a fresh Phasor returns 1 for ever, Kahan() is Kahan(0), a fresh AMD1 has the fixed envelope 0.001 whatever the input. ReadPNM on a file that cannot be opened gives an object that is not good(); ReadWAV on such a file (or an empty one) is undefined behaviour already in the constructor (refuted: that a missing file is reported).", "quantifier": "for all rounding functions with rnd 0 = 0 and rnd 1 = 1, all orders, all signals of representable samples, all times", "why_tests_cant": "A test uses configured objects and existing files; the behaviour between construction and configuration, the permanent NaN and the read of uninitialised bytes are not observed.", "anchors": ["ema.hh:19-88", "biquad.hh:21-24,105-138", "blockdc.hh:17-30", "phasor.hh:20-47", "kahan.hh:16-17", "amd.hh:18-39", "wav.hh:48-53", "netpbm.hh:44-47", "complex.hh:22-29"]}
{"id": "C86", "title": "Order of the points and change of coordinates in the median based line fits", "statement": "TheilSenEstimator, RepeatedMedianEstimator and RepeatedMedianEstimator2 report a line that depends only on the multiset of points - not on their order, the template size, the scratch arrays or earlier fits - in exact arithmetic and for every sign symmetric rounding (IEEE included); for LEN_MAX=2 Theil-Sen takes the intercept of the first point and this fails in binary64 (refuted). In exact arithmetic scaling and shifting x by p>0, q and replacing y by a y + b x + c with a>0 transforms the fitted line accordingly for Theil-Sen and RepeatedMedianEstimator2; RepeatedMedianEstimator only for q=0: shifting three points by one unit turns x+9 into x+15 (refuted), and mirroring y does not negate the slope of an even number of pairs (refuted).", "quantifier": "for all numbers of points, point sets with at least two abscissas, permutations, scratch contents, p>0, a>0, q, b, c and sign symmetric roundings", "why_tests_cant": "A test checks one order and one coordinate system; the equalities range over all permutations and transformations.", "anchors": ["theil_sen.hh:13-41", "repeated_median.hh:14-86", "quick.hh:14-60"]}
{"id": "C87", "title": "Rounding error of the Fourier transform in the Euclidean norm, and of transforming back and forth", "statement": "In floating point the vector of all bins of FastFourierTransform differs from the exact transform by at most (1+h)^(240 m) - 1 of its own Euclidean norm for BINS <= 2^m, and (1+h)^(34 m) - 1 for BINS = 2^m, where h covers unit roundoff, table error and underflow; no bound on the inputs is needed and the error grows only with log BINS. With the tables of UnitCircle this is 310 m u (powers of two) resp. 2200 m u in binary64 and binary32. Forward followed by backward transform gives BINS times the input with twice that exponent. Refuted: that every single bin has a small relative error (1,-1,2^-60,0 gives bin 0 = 0 instead of 2^-60).", "quantifier": "for all 31-smooth BINS, signs, inputs and roundings with relative error u and underflow error e", "why_tests_cant": "Worst case over all inputs; a test on random signals shows the average error of a few sizes.", "anchors": ["fft.hh:13-1164", "unit_circle.hh:13-85"]}
{"id": "C88", "title": "Recursive filters come to rest in floating point, but not at the right place", "statement": "With an input that stays constant, EMA and EMACascade (any order, real or complex) output exactly the same value from some sample on - no limit cycles - in every rounding mode, provided 1-alpha rounds into [0,1). With rounding to nearest that value misses the input by at most (1+12u/alpha)^ORDER-1 relatively. With input zero and 1/2 < 1-alpha < 1 the output never becomes zero: it keeps its sign and rests at a denormal of size at most 2^emin/(2(1-c)), c the rounded 1-alpha; for c < 1/2 it does reach zero. BlockDC with constant input behaves the same way with its coefficient a. samples(s) with 3 <= s <= 2^(prec-1) meets the conditions. Refuted in binary64: that EMA samples(100) settles at its constant input 1 (it stops below), that BlockDC samples(4) removes a constant (2^-1073 remains), and that a positive alpha always makes the filter follow (alpha=2^-54 keeps 100 for ever with input 1). Refuted in binary32: that samples(s) always gives BlockDC a coefficient below 1; samples(2^25+1) gives 1, and a constant input then passes unchanged for ever.", "quantifier": "for all precisions, exponent ranges and rounding modes, all states, inputs, orders and times", "why_tests_cant": "Claims about all later times and all start values; a test that runs long enough for one signal sees one resting value.", "anchors": ["ema.hh:14-89", "blockdc.hh:12-31", "utils.hh:19-23"]}
{"id": "C89", "title": "The LMS filters converge to the unknown system", "statement": "If the desired signal is an unknown filter g applied to the input plus noise, the step sizes stay in [m,2-m] and the input is persistently exciting (over any L samples every direction is seen by the normalised windows with energy dl), then the coefficients of NLMS and NCLMS satisfy |f_t - g| <= (1-kappa)^(t/L) |g| + L be/kappa + L be with kappa = m dl/(8 L^2), be bounding mu |noise| / |window|; without noise they converge to g geometrically. Without persistent excitation the sum of all squared errors is still at most Pmax |g|^2 / m. Refuted: that the coefficients always converge (constant input, g=(1,0): the two coefficients stay equal for ever), and that mu=2 is admissible (the distance never changes).", "quantifier": "for all filter lengths, inputs, unknown systems, noise signals, step size sequences and times, in exact arithmetic", "why_tests_cant": "Convergence is a statement about all times and all inputs of a class; a test shows one signal.", "anchors": ["lms.hh:13-46", "lms.hh:48-81", "bip_buffer.hh:12-45"]}
{"id": "C90", "title": "Rounding errors of decibel, idecibel and exp10", "statement": "In floating point with relative rounding error u, decibel(v) is within 11990 u (+1e-19) of 10 log10(v) for 1e-30 <= v <= 1e30 (1.4e-12 dB in binary64, 7.2e-4 dB in binary32), exp10(x) has relative error below 8 u + 2e-16 for |x| <= 76.8, idecibel(dB) below (8.1 + 0.24 |dB|) u + 3e-16, and decibel(idecibel(dB)) returns to dB within 1.5e-12 (binary64) and 7.5e-4 (binary32) for |dB| <= 299. Refuted: that the error of decibel is small relative to its value (binary32: decibel of the successor of 1 is 0).", "quantifier": "for all values of the ranges, all rounding functions of the given accuracy, all tie-breaking rules of nearbyint; without overflow", "why_tests_cant": "The bound holds for every value and rounding; tests sample values and compare with another rounded computation.", "anchors": ["decibel.hh:14-40", "decibel.hh:42-46", "exp.hh:14-26", "exp.hh:28-50"]}
{"id": "C91", "title": "Rounding errors of atan and atan2", "statement": "In floating point with relative rounding error u, atan(x) is within 5.9 u + 1e-16 of the arctangent for every x, and atan2(y,x) within 13 u + 1.1e-16 of the angle of the point (6.5 u for x >= 0), possibly up to a whole turn; the whole turn can only be wrong if the point lies within 1e-33, as a slope, of the negative x axis (it is wrong there: C36). In binary64 the error is at most 1.6e-15, in binary32 7.8e-7.", "quantifier": "for all points but the origin, all rounding functions of the given accuracy; without overflow", "why_tests_cant": "The bound holds for every point, including the seams between the three argument ranges; tests sample.", "anchors": ["atan2.hh:18-35", "atan2.hh:37-49", "atan2.hh:51-55", "atan2.hh:57-72"]}
{"id": "C92", "title": "The test programs pass", "statement": "The test programs of the repository cannot fail: deque_test and movext_test for every capacity, number of rounds and outcome of the random generator, quick_sort_test and quick_select_test for every array size that fits and every random content, cordic_test for char and short, atan2_test for float against double and double against long double up to the limit 2^28-1 instead of 5000, kahan_test for double (where the plain sum fails).", "quantifier": "for all sequences of random numbers, sizes and numbers of rounds", "why_tests_cant": "A test program run shows one random sequence; this is about all of them, and about the assertions inside the library that the programs reach.", "anchors": ["tests/deque_test.cc:13-98", "tests/movext_test.cc:14-57", "tests/quick_sort_test.cc:13-36", "tests/quick_select_test.cc:13-40", "tests/cordic_test.cc:14-32", "tests/atan2_test.cc:14-36", "tests/kahan_test.cc:12-30"]}
{"id": "C93", "title": "Literals: correctly rounded constants and harmless double rounding", "statement": "Each of the nine constants of const.hh is, in float, double and long double, the number of that type next to the exact value (pi, its multiples, the square roots). A literal of the sources is converted to double or, with the suffix L, to long double before it is converted to the type of the constant it initialises; for the literals of const.hh, unit_circle.hh, atan2.hh, exp.hh, decibel.hh, ema.hh and window.hh the second rounding never changes the result, so the functions compute the same as with literals rounded once. The table of CORDIC, computed in long double at compile time from the literals (atan(2^-i)/pi to 66 decimals), is the one of the exact literals.", "quantifier": "for all literals of the listed files, all arguments of the functions, and either type of each literal", "why_tests_cant": "Tests cannot tell a constant that is one ulp off, and run with one type.", "anchors": ["const.hh:16-60", "unit_circle.hh:19-33", "atan2.hh:20-47", "exp.hh:32-41", "decibel.hh:21", "ema.hh:47-67", "window.hh:27-60", "cordic.hh:24-42"]}
{"id": "C94", "title": "UnitCircle, atan and atan2 in IEEE 754 arithmetic with overflow, infinities and NaN", "statement": "In IEEE arithmetic with its limited range of exponents (infinities, NaN and signed zeros included), UnitCircle::cos(n, N) and sin(n, N) never overflow: their results are finite and within 8 units roundoff of the cosine and sine. atan(x) is finite and accurate for every x that is not a NaN, infinities included. atan2(y, x) is finite for all finite arguments, and within 1.6e-15 (double) or 7.8e-7 (float) of the angle of (x, y), even if y/x overflows to an infinity, unless both are zero or the point is within 1e-33 (as a slope) of the negative x axis. For y = -0 it is -0 or minus pi. Of two infinities it is not the value the C library specifies but NaN (refuted for non-finite arguments).", "quantifier": "for all n, N of the documented range; for all floating-point numbers x, y of a binary format with at least 24 bits and exponents up to at least 127", "why_tests_cant": "The failures would need overflowing quotients, subnormal numbers or signed zeros, of which tests with random arguments of ordinary size produce none.", "anchors": ["unit_circle.hh:14-88", "atan2.hh:14-75"]}
{"id": "C95", "title": "The FFT in IEEE 754 arithmetic: no overflow for bounded input, no unnoticed overflow for any input", "statement": "FastFourierTransform in IEEE arithmetic with limited exponents, its tables computed by UnitCircle in the same arithmetic: if all inputs are finite and of modulus at most X, and X BINS^3 is below 2^128 (float) or 2^1024 (double), all results are finite. Whether or not that holds, every finite result differs from the discrete Fourier transform by at most 100 m units roundoff relative to BINS X (BINS <= 2^m): an overflow on the way always shows as an infinity or NaN in the results it affects.", "quantifier": "for all 31-smooth sizes up to INT_MAX/8, both directions, all finite inputs of modulus at most X, and any previous contents of the output", "why_tests_cant": "Overflow depends on the size of all intermediate sums of the transform; tests use inputs of modulus about one.", "anchors": ["fft.hh:14-1126", "unit_circle.hh:14-88", "complex.hh:11-126"]}
{"id": "C96", "title": "RealToHalfComplexTransform in floating point: memory safety in any arithmetic, rounding error, overflow", "statement": "RealToHalfComplexTransform writes exactly the bins 0..BINS/2 whatever the arithmetic and the trigonometric functions return. With rounded operations every bin differs from the spectrum of the real input (bins 0 and BINS/2 halved) by at most ((1+h)^(11m+8) - 1) BINS X. In IEEE float and double, tables computed by UnitCircle: all results are finite if 2 X BINS^3 is below the overflow threshold, and every finite result has error at most (150 m + 110) units roundoff relative to BINS X, where |x| <= X and BINS/2 <= 2^m.", "quantifier": "for all even sizes with a 31-smooth half up to INT_MAX/8, all finite inputs of absolute value at most X, and any previous contents of the output", "why_tests_cant": "The rounding errors of the complex transform of half the length and of the recombination with tables A and B add up in a way no finite set of inputs bounds.", "anchors": ["fft.hh:1128-1160", "unit_circle.hh:14-88", "complex.hh:11-126"]}
{"id": "C97", "title": "The splines reproduce smooth functions: error bounds and convergence", "statement": "If the values passed to UniformNaturalCubicSpline or CubicHermiteSpline are samples of a function G that is twice differentiable with |second derivative| <= B, every interpolated value between the first and the last knot differs from G(x) by at most B dx^2 / 2 (natural spline) respectively B h^2 / 4 (Hermite spline; h the largest distance of adjacent knots, which need not be equidistant). So the natural spline through K equidistant samples converges to G as K grows.", "quantifier": "for all numbers of knots, all knot positions, all twice differentiable G, all strides and all x between the first and the last knot", "why_tests_cant": "A claim about all smooth functions and all spacings; the solution of the tridiagonal system has to be bounded independently of the number of knots.", "anchors": ["spline.hh: UniformNaturalCubicSpline", "spline.hh: CubicHermiteSpline"]}
{"id": "C98", "title": "quick.hh: number of comparisons and recursion depth", "statement": "For every strict weak order, quick_sort and quick_select of n elements apply the comparison operators at most n (3 d + 16) times and need at most d partitions on top of each other (recursion depth of sort, iterations of select), for every d with n <= 32 + 3 d and also for every d that bounds the number of different values (three-way partitioning: few different values are cheap). In general this cannot be improved: for every d there is an array of n = 33 + 3 d numbers on which both need more than d and make at least (n - 30)(n + 33) / 6 comparisons; neither sorting in n log n nor selecting in linear time is guaranteed. The median of five always takes six comparisons and a partition of n elements between n and 2 n more.", "quantifier": "for all strict weak orders, all arrays, all n, k and d", "why_tests_cant": "The depth and the comparison count are bounds over all arrays of every length; the worst case is an adversarial input of every length.", "anchors": ["quick.hh: quick_sort, quick_select", "quick.hh: QUICK::sort, QUICK::select, QUICK::partition, QUICK::median, QUICK::insertion"]}
{"id": "C99", "title": "Samples that are NaN or infinite", "statement": "In every IEEE format: MovMin and MovMax on samples without NaN return the extremum of the last NUM samples, provided +infinity or numeric_limits::max() (MovMin), or numeric_limits::min() (MovMax: the smallest positive normal number, unless nothing smaller occurs), is not among them. One NaN breaks them for good: whatever came before, at most 2 NUM further samples that do not fall (rise) later the assertion of stack.hh fails; but for any comparison at all the worst that can happen is that assertion. EMA, EMACascade, BlockDC, Biquad, BiquadCascade, Integrator, Kahan, NormalizeSine, SMA2, SMA3 and NLMS return no finite value any more after one non-finite sample and only NaN after a NaN, for all coefficients and states, real and complex samples; so does the AM demodulator after a NaN. Differentiator, the five FM demodulators, Hilbert, CDC and SMA1 recover: in any arithmetic the output is determined by the last 2, 2 or 3, TAPS, (TAPS-1)/2 and NUM samples; a Schmitt trigger ignores NaN.", "quantifier": "for all formats, window lengths, histories, coefficients, states and times; the memory bounds for all arithmetics", "why_tests_cant": "Tests feed finite samples; whether one bad sample is ever forgotten is a statement about all later times, and the broken window depends on histories of unbounded length.", "anchors": ["movext.hh: MovExt::operator(), MovMin, MovMax", "stack.hh: Stack::push", "ema.hh, blockdc.hh, biquad.hh, calculus.hh, kahan.hh, normalize.hh, sma.hh, lms.hh, amd.hh, fmd.hh, hilbert.hh, cdc.hh, trigger.hh: operator()"]}
{"id": "C100", "title": "The filters in IEEE 754 arithmetic: overflow is visible, bounded input does not overflow", "statement": "EMA, EMACascade, BlockDC, Biquad, BiquadCascade (real and complex), Integrator, Differentiator, Kahan, Hilbert, CDC and SMA1 to SMA4, computed in any IEEE format with overflow, infinities and NaN: whenever an output is finite it is exactly the output of the same filter computed with the same precision and exponents without upper limit, whatever the coefficients, the state and the earlier samples. Hence the error bounds proved for rounding arithmetic hold for the real float and double. EMA with samples below a fifth of the range, BlockDC, and every Biquad and BiquadCascade with poles inside the unit circle and samples below a bound depending only on the coefficients never overflow, and stay within the stated error of the exact filter for ever. Integrator and all four moving averages overflow although every sample and the true average are representable.", "quantifier": "for all formats (24 <= prec, 128 <= emax where rounding matters), coefficients, states, bounded signals of any length", "why_tests_cant": "Tests use samples around one; overflow is reached only for particular coefficient and signal combinations, and never overflowing is a statement about all later times.", "anchors": ["ema.hh, blockdc.hh, biquad.hh, calculus.hh, kahan.hh, sma.hh, hilbert.hh, cdc.hh: operator()"]}
{"id": "C101", "title": "Promised costs: moving extremum amortised O(1), sliding window aggregator O(log NUM), FFT O(n log n)", "statement": "Counting models of movext.hh, swa.hh and fft.hh make the same steps as the models. For any comparison, n calls of MovExt apply ==, COMP, push and pop at most 7 n + 1 times in total; a single call takes at most 2 NUM + 6 such steps, and for every NUM a history exists after which one call takes 2 NUM, so O(1) holds only amortised. After any history a call of SWA applies OP floor(log2 NUM) or one more times and changes only the tree cells above the leaf of the new sample. The number of real additions, subtractions and multiplications of FastFourierTransform depends only on BINS and is at most 14 BINS log2 BINS for every supported size and 5 BINS log2 BINS for powers of two.", "quantifier": "for all element types, comparisons, operations, window lengths, histories; for all FFT sizes, arithmetics and inputs", "why_tests_cant": "Timing tests sample a few histories and sizes; an amortised bound sums over histories of any length, and one size more may need another radix.", "anchors": ["README.md: MovExt amortized O(1), SWA", "movext.hh: MovExt::operator()", "stack.hh: push, pop", "swa.hh: SWA::operator()", "fft.hh: Dit::dit, Dit::dft, FastFourierTransform::operator()"]}
{"id": "C102", "title": "The interpolation filter of the resamplers is linear phase for OVER = 1 only", "statement": "The Kaiser window falls strictly from its middle on both sides for every non-zero shape parameter. In Resampler and Resampler2 the sinc is centred at (TAPS-1)/2 but the window of TAPS*OVER taps at (TAPS-1/OVER)/2: two taps at the same distance before and after (TAPS-1)/2 have the same sinc, and for OVER > 1 the later one always has the strictly larger window. Hence for all TAPS, OVER >= 2, all cutoffs up to rate/2 and shape parameters other than 0 the filter is not symmetric. For OVER = 1 the whole interpolated filter is symmetric about (TAPS-1)/2, between the taps too.", "quantifier": "for all TAPS, OVER, rates, cutoffs, shape parameters; for all points of the interpolated filter", "why_tests_cant": "The asymmetry is small for a high OVER and hides in a listening test; the claim is about every pair of mirrored taps and every point of the spline.", "anchors": ["resampler.hh: Resampler::Resampler, Resampler2::Resampler2", "window.hh: Kaiser", "spline.hh: UniformNaturalCubicSpline"]}
{"id": "C103", "title": "The Kaiser window in floating point", "statement": "In arithmetic of 20 to 64 bits rounded to nearest even (binary32 and binary64 included): i0 is within 38 u of the modified Bessel function I0, relatively, for every argument between -9.5 and 9.5, wherever its loop leaves; the argument of the square root lies between 0 and 1, so it is never taken of a negative number; the window differs from I0(Pi a sqrt(1-(2n/(N-1)-1)^2))/I0(Pi a) by at most 530 u for every |a| <= 3, n and N up to 2^prec: 3.2e-5 for float, 5.9e-14 for double. The comment that the loop converges for -3 Pi .. 3 Pi in less than 25 (float) and 35 (double) iterations is false: one float needs 25, for one double none of the 34 iterations finds the sum unchanged.", "quantifier": "for all arguments |x| <= 9.5, shape parameters |a| <= 3, taps n, window lengths N and formats", "why_tests_cant": "The loop ends when the compensated sum stops changing, which depends on the rounding of every term; near the ends of the window the square root magnifies the rounding errors of its argument without bound, only the evenness of I0 saves the result.", "anchors": ["window.hh: Kaiser::i0, Kaiser::operator()", "kahan.hh: Kahan::operator(), same", "const.hh: Pi"]}
{"id": "C104", "title": "The Hilbert transformer in floating point", "statement": "In arithmetic of 20 to 64 bits rounded to nearest even, for TAPS = 4K+1 taps, a Kaiser parameter of at most 3 and inputs bounded by B: the real part is the input TAPS/2 + 1 samples ago without any error, and the imaginary part differs from the convolution of the previous inputs with the ideal Kaiser-windowed Hilbert kernel (true Bessel function and pi) by at most (1090 + 3K) u B sum_(i<K) 2/(Pi(2i+1)) plus underflow; for float, up to 129 taps and |x| <= 1 by at most 2e-4.", "quantifier": "for all K, shape parameters |a| <= 3, input signals, times and formats", "why_tests_cant": "The error combines the window, the coefficients and the order of summation and grows with the number of taps; that the delay path is exact needs the middle of the computed window to be exactly 1 for every a and TAPS.", "anchors": ["hilbert.hh: Hilbert::Hilbert, operator()", "window.hh: Kaiser", "const.hh: Pi"]}
{"id": "C105", "title": "Stability of the Biquad designs with coefficients computed in floating point", "statement": "With UnitCircle, alpha, the textbook coefficients and their quotients all rounded to nearest even, every one of the five designs is stable (poles inside the unit circle, bounded answer of the recursion to bounded signals): in float for cutoffs at least N/4000 away from 0 and N/2 and 0.49 <= Q <= 1000, in double for all 0 < 2n < N <= 50000000 and 0.49 <= Q <= 1e6. Without the distance from 0 this is false in float: highpass(1, 48000) with the default Q has a real pole above 1 and its impulse response is unbounded. lowpass(1, 48000) in float is silent for every Q.", "quantifier": "for all n, N, Q in the stated ranges, all five designs, all bounded input signals and times; the refutation is one filter and all bounds", "why_tests_cant": "Whether rounding pushes a pole over the unit circle depends on every n, N and Q; the unstable filter needs seconds of audio at 48 kHz before its output is visibly wrong and there is no test of biquad.hh.", "anchors": ["biquad.hh: lowpass, highpass, notch, bandpass, allpass", "unit_circle.hh: UnitCircle::cos, sin", "const.hh: InvSqrtTwo"]}
{"id": "C106", "title": "The FM demodulators in floating point", "statement": "With every operation rounded with relative error u (1e-20 <= u <= 1e-6) and an arg of absolute error d, for input r_t exp(i theta_t) with any positive amplitudes and phase step phi: FMD1 is within (2.002 d + 30 u)/(pi |bw|) of phi/(pi bw) if |phi| <= pi - (2 d + 10 u); FMD2 within (1.001 d + 22 u)/(pi |bw|) if |phi| <= pi - 8.2 u; FMD3 within (1.001 d + 17 u)/(pi |bw|) if |phi| <= pi - 3.1 u. FMD4 is within 9.5 u w/(pi |bw|) of w sin(phi)/(pi bw) with w the ratio of the amplitudes, and FMD5 at constant amplitude within 12.3 u/(pi |bw|) of the mean of two sines over pi bw, for every phi.", "quantifier": "for all amplitudes, phases, bandwidths, first states, times, argument functions and roundings", "why_tests_cant": "The wrap-around of FMD1 compares a rounded difference of two rounded angles with a rounded pi: a wrong branch is an error of a full turn, and only a bound on every intermediate error excludes it.", "anchors": ["fmd.hh: FMD1, FMD2, FMD3, FMD4, FMD5", "complex.hh: operator*, operator/, norm, conj", "const.hh: Pi, TwoPi"]}
{"id": "C107", "title": "EMA::cutoff in floating point", "statement": "In every binary floating-point format of at least 24 bits (rounding to nearest even, no overflow): the cosine and sine of UnitCircle lie in [-1, 1]; hence the radicand x(x-4)+3 in cutoff_alpha is never negative and the factor lies in [0, 9/10], being 0 exactly when the computed cosine is 1. For 24 to 53 bits it is within 50 u / sin(pi n/N) of the exact factor (u = 2^-prec), and positive as soon as 2 sin(pi n/N)^2 > 9 u. If s = sin(pi n/N) satisfies s^2 >= 1000 u, the whole filter, cutoff and recursion rounded, stays for ever within 150 u X / s^2 + 11 e / s of the exact filter on inputs of magnitude at most X (e = half the smallest subnormal). Below 9 u / 2 it need not be: in binary32 cutoff(1, 48000) gives the factor 0 and the average never moves, whatever the input; that a positive cutoff always gives a positive factor is refuted for float.", "quantifier": "for all n, N with 8 N <= INT_MAX, all formats of 24 (to 53) bits, all states, inputs and times", "why_tests_cant": "The radicand cancels to zero at low cutoffs, so that a single rounding in the wrong direction would give sqrt of a negative number, i.e. NaN; the exclusion needs the neighbours of 1 and 3 in the format.", "anchors": ["ema.hh: cutoff_alpha, EMA::cutoff, EMA::operator()", "unit_circle.hh: cos, sin", "utils.hh: lerp"]}
{"id": "C108", "title": "The slope of SimpleLinearRegression in floating point", "statement": "On equidistant points the constructor SimpleLinearRegression(y, l, x0, dx) with every operation rounded to prec bits (u = 2^-prec, 100 (n+3) <= 2^prec, no overflow or underflow) returns, for n ordinates of absolute value at most Y, a slope within 23 (n+4) u Y/(n |dx|) of that of the line of least squares, whatever x0.", "quantifier": "for all precisions, ordinates, lengths, origins and spacings", "why_tests_cant": "The error of the rounded mean would enter every product; it cancels because the centred abscissas are exact and sum to zero, which is an argument over all n and not a sample.", "anchors": ["regression.hh: SimpleLinearRegression(y, l, x0, dx)"]}
{"id": "C109", "title": "Frequency domain zero padding in floating point", "statement": "For even INPUT and 3 INPUT <= 2 OUTPUT, both products of 2..31, every call in every sequence of calls on one FrequencyDomainZeroPadding<OUTPUT, INPUT, Complex<float or double>> object is defined and stores the samples of a trigonometric polynomial of degree INPUT/2 through its input with an error, in the Euclidean norm of the whole output, of at most 10 (d_in + d_out + 3) u (sqrt(OUTPUT/INPUT) ||input|| + tiny), where d = 34 log2 BINS for powers of two and 240 log2 BINS otherwise: the mean square error stays proportional to the mean square of the input and no error is carried from call to call. Every rounding is counted, including the tables, the halved middle bin and the scaling by 1/INPUT.", "quantifier": "for all sizes, calls, inputs and previous contents of the output arrays", "why_tests_cant": "The error of two transforms and of the padding between them has to be followed through every size; a test with a few inputs sees neither the worst input nor the dependence on the size.", "anchors": ["fdzp.hh: FrequencyDomainZeroPadding::operator()"]}
{"id": "C110", "title": "Resampler2 in floating point: bounded phase, bounded drift, and lost rate differences", "statement": "With every operation rounded to nearest (at least 20 bits, no overflow) and |diff| <= rate/2 in every call, diff changing from call to call: the constructor and every call in every sequence are defined, a call returns at most two values, the phase stays in [-1, 1/2] for ever and misses the exact phase by at most 1.5 * 2^-prec for each value returned so far. Refuted: that a float Resampler2 tracks every rate difference. For 0 <= diff <= rate * 2^-(prec+3), for example 0.0003 Hz at 48 kHz in single precision, every call returns exactly one value for ever, while in exact arithmetic the number of values runs ahead of the number of calls without bound.", "quantifier": "for all histories of rate differences and samples, all tap counts, oversampling factors, windows and rates", "why_tests_cant": "The phase is fed back from call to call without end; that the increment gets lost shows only after the hours it would take to insert a sample.", "anchors": ["resampler.hh: Resampler2"]}
{"id": "C111", "title": "NLMS and NCLMS in floating point: overflow of the step size", "statement": "In every IEEE format, for every SIZE and every history: if the power of the window at some call is not zero but mu / power is not finite, no later call of NLMS returns a finite number, whatever the later samples are. mu / power is finite whenever the power is a normal number and |mu| <= 2, so this happens only for a subnormal power (or a larger mu). It does happen: with a first sample of 2^-64 (float) or 2^-512 (double), desired value 1 and mu = 1, every later output is infinite or NaN, for every filter length; that finite samples keep the filter finite is refuted. The test \"power == 0\" in the code does not catch it. The same holds for NCLMS with complex samples, for which in addition one sample that is not finite (or NaN) makes its own and every later output so.", "quantifier": "for all formats, filter lengths, histories, later samples and times", "why_tests_cant": "The bad power lies in a range of a few binary orders of magnitude just above underflow, which test signals of usual amplitude never produce, while a signal that fades out passes through it.", "anchors": ["lms.hh:28-44 NLMS::operator()", "lms.hh:63-79 NCLMS::operator()", "bip_buffer.hh: BipBuffer::operator()"]}
{"id": "C112", "title": "Down-converter in floating point", "statement": "CDC with TAPS = 4K+1, any coefficients and samples bounded by B, every operation rounded with relative error u and absolute error e (K u <= 1/4): at every time the output differs from that of the same filter in exact arithmetic by at most u |reco| B + e in the real part and (3K+5) u B A + (2A+3K) e in the imaginary part, A the sum of the magnitudes of the coefficients; nothing accumulates over time. Errors of the coefficients enter the exact filter with at most 2 B times the sum of their magnitudes. For the object made by the constructor (Kaiser parameter |a| <= 3, binary floating point of 20 to 64 bits) the output is i times the ideal Kaiser-windowed half-band filter applied to x_n exp(-i pi n/2), up to u B/2 + e in the real part and (1090+4K) u B sum_(i<K) 1/(pi(2i+1)) + 4 K e in the imaginary part. For samples of the format the real part is exactly half the second input of K calls ago with alternating sign, except where halving underflows.", "quantifier": "for all K, coefficients, bounded signals, times and roundings", "why_tests_cant": "A bound for all times and all bounded signals; the sign alternation and the folding of symmetric taps must not cost accuracy.", "anchors": ["cdc.hh:38-50 CDC::operator()", "cdc.hh:26-37 CDC::CDC", "filter.hh:28-42 LowPass2"]}
