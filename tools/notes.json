{
 "C49": {
  "note": "REFUTED, not proved: the property as stated is false of the code. Violated by the code; the refutation theorem gives the witness (load_multiple then load_single). General fact proved: load_single never changes the trigger mode.",
  "status": "partial"
 },
 "C50": {
  "note": "REFUTED, not proved: the property as stated is false of the code. Each load adds one sequence and frees none; for every n a history with n live sequences; close() frees at most one explicitly. What AlpDevFree itself releases is not modelled.",
  "status": "partial"
 },
 "C51": {
  "note": "REFUTED, not proved: the property as stated is false of the code. Violated by the code; witness: initialize, close, load_single. General fact proved for both controllers: once set the flag survives every history.",
  "status": "partial"
 },
 "C11": {
  "note": "REFUTED, not proved: the property as stated is false of the code. Violated by the code as stated; the refutation gives the witness. The second theorem proves what does survive a failing call.",
  "status": "partial"
 },
 "C37": {
  "note": "REFUTED, not proved: the property as stated is false of the code. Violated by the code; witness: 4x2 DMD with one dark mirror. A general theorem shows when it happens; C35 covers the inputs for which it does not.",
  "status": "partial"
 },
 "C38": {
  "note": "REFUTED, not proved: the property as stated is false of the code. Violated by the code only for spectra that vanish identically (ZeroDivisionError after the state was overwritten); all other errors are proved to change nothing.",
  "status": "partial"
 },
 "C46": {
  "note": "REFUTED, not proved: the property as stated is false of the code. Violated by the code; witness: grey level strictly between 0 and 1 stored as an on mirror. The second theorem says exactly what is stored.",
  "status": "partial"
 },
 "C41": {
  "note": "REFUTED, not proved: the property as stated is false of the code. Violated by the code; witness: 2x1 beam with a sign change, error 0 becomes 2 after one iteration. C40 is the case for which it holds.",
  "status": "partial"
 },
 "C43": {
  "note": "REFUTED, not proved: the property as stated is false of the code. Violated by the code; witness: 3x1 device, spot at one edge is displayed at the other. The second theorem says what is displayed.",
  "status": "partial"
 },
 "C39": {
  "note": "Non-finite ideal patterns (dark mirrors) are covered by the last clause of the first theorem."
 },
 "C55": {
  "note": "REFUTED, not proved: the property as stated is false of the code. Violated by the code; witness: a ConstantProfile on a 5x4 device gives a rank-0 tensor. The other theorems say exactly what is returned in every case.",
  "status": "partial"
 },
 "C25": {
  "note": "Holds for every constructor with setters; LaguerreGaussian has none, an assignment to it is accepted and ignored (last theorem)."
 },
 "C27": {
  "note": "Coefficients from scipy.special.hermite are modelled by the exact integer recurrence."
 },
 "C28": {
  "note": "Coefficients from scipy.special.genlaguerre are modelled by the exact closed form."
 },
 "C18": {
  "note": "REFUTED, not proved: the property as stated is false of the code. Violated by the code: m < -n is accepted (witness n=0, m=-2). The other theorems give the exact accepted set and show the accepted invalid modes vanish identically.",
  "status": "partial"
 },
 "C17": {
  "note": "Disc integral as an iterated Riemann integral in polar coordinates (Coquelicot is_RInt)."
 },
 "C15": {
  "note": "IEEE binary64 via Flocq. The range 9+8j<=2^53 is what is claimed; a further theorem shows a wrong result at j=2^53-2^26."
 },
 "C20": {
  "note": "REFUTED, not proved: the property as stated is false of the code. Violated by the code: both parts refuted (1x3 grid, radius 2). The residual of a tilt and the effect of a second pass are proved exactly; a witness shows the tilt can even grow. C86 bounds both effects by a constant over the radius.",
  "status": "partial"
 },
 "C59": {
  "note": "REFUTED, not proved: the property as stated is false of the code. Violated by the code; witness on a 1x3 grid. What removing defocus leaves of the mean is given exactly (C59_mean_left_by_defocus_removal), and C86 bounds it by a constant over the radius.",
  "status": "partial"
 },
 "C19": {
  "note": "Real arithmetic; the array is all NaN exactly when the aperture is empty (last theorem)."
 },
 "C68": {
  "note": "REFUTED, not proved: the ALP controller rejects an empty list, the Luxbeam controller accepts it and its sequencer then never sets the mirrors nor waits for a trigger.",
  "status": "partial"
 },
 "C79": {
  "note": "REFUTED, not proved: the property as stated is false of the code. The getters call .value() on a tf.constant and raise AttributeError for every Zernike object (second theorem). LaguerreGaussian has no attribute getters at all (third theorem). Assumes, as TensorFlow documents, that an eager tensor has no method value.",
  "status": "partial"
 },
 "C82": {
  "note": "REFUTED in its last part: with the default mixing factor 0.4 one MRAF iteration spoils a hologram that displays the target exactly (witness with a 0/1 window, third theorem). GS and MRAF with mixing factor 1/2 keep it (first two theorems). Real arithmetic.",
  "status": "partial"
 },
 "C84": {
  "note": "REFUTED, not proved: nothing compares the arrays with the panel. Input and target of one wrong size are accepted, slm_state gets that size and no full-size beam can be propagated any more (third theorem). What holds: slm_state always gets the input's shape, and beside a full-size input a misfitting target or window raises and changes nothing (first two theorems).",
  "status": "partial"
 },
 "C85": {
  "note": "REFUTED, not proved: a DMD built with periodicity 0 computes holograms without an exception and reports the same efficiency as with any other period, but every mirror is off (NaN for method 'ideal'), and block_zeroth_order with its default radius blanks the whole image. IEEE semantics of division by zero and NaN as in LibModel.v.",
  "status": "partial"
 },
 "C86": {
  "note": "The constants K are shown to exist, not computed (28 for the pixel count is explicit). Exact arithmetic; the ANSI indices in binary64."
 },
 "C89": {
  "status": "partial",
  "note": "REFUTED, not proved: C89_raising_s_raises_the_first_order_refuted gives a grating whose simulated first order vanishes when s is raised from 1 to 3. Proved instead: larger s only switches mirrors on (constant symmetric part of the window), the first harmonic peaks at A s = 1, and the returned efficiency ignores s."
 },
 "C97": {
  "status": "partial",
  "note": "REFUTED, not proved: on a DLP9500 column 26 comes back as 26 + 2^-43 (C97_index_round_trip_refuted, evaluated in IEEE binary64). Proved instead: C96, the error is below 3u(N+3), so rounding to the nearest integer recovers the index."
 },
 "C95": {
  "note": "Overflow is not modelled. Of the library functions only the range of cos and tanh and asin(0) = 0 are assumed; the pieces (amplitudes, grey level of one mirror) are evaluated in floating point, the FFT that produces the spectrum is not."
 },
 "C98": {
  "note": "x**2 is taken to be the correctly rounded product. Diameters whose square does not fit the mantissa are not covered."
 },
 "C99": {
  "note": "Overflow is not modelled. Each elementary operation is rounded once (no fused multiply-add)."
 },
 "C102": {
  "status": "partial",
  "note": "REFUTED, not proved: circular_patch writes into the array that was read (witness: all mirrors on, read, patch of amplitude 0). Proved instead: the array read follows the device until the device gets a new array; no other method changes it; a copy is a snapshot."
 },
 "C103": {
  "note": "The Fourier transform is any function with the stated accuracy in the Euclidean norm; that the transform of a particular library has this accuracy is not proved. Overflow is not modelled."
 },
 "C105": {
  "status": "partial",
  "note": "REFUTED, not proved: two iterations can be worse than one. Moreover for every N >= 2 (the default 200 included) there is a three-mirror grating for which N iterations end with over 100 times the window error of plain thresholding."
 },
 "C109": {
  "status": "partial",
  "note": "REFUTED, not proved: the class has __exit__ but no __enter__, so a with statement raises before its block runs and nothing is ever closed. Proved instead: that it always does so, and that a do-nothing __enter__ would make the property true."
 },
 "C110": {
  "status": "partial",
  "note": "REFUTED, not proved: sample.py uses np.bool, which NumPy 1.24 to 1.26 do not have. Proved instead: under exactly those versions it raises AttributeError, under all others the image has the size the board reports. The pixels drawn by PIL are not modelled."
 },
 "C119": {
  "status": "partial",
  "note": "REFUTED, not proved: witness of three pixels with target 2/3, 1/3, -2/3; one iteration raises the error from 0 to at least 4/117. C119_iterations_alternate says what an iteration aims at for every signed target; for targets without negative values the claim is C40."
 },
 "C120": {
  "status": "partial",
  "note": "REFUTED, not proved: for every N >= 2 (the default 200 included) there is a three-mirror grating for which every draw of the random numbers between 1 % and 98 % leaves less than a hundredth of the window error of IFTA. With a constant window and a beam of one phase, IFTA is never worse than any pattern: C90."
 },
 "C132": {
  "status": "partial",
  "note": "REFUTED, not proved: C132_refuted shows the blank hologram for every waist up to 1 mm on a DLP9500 (C132_blank_hologram for any device), beside the positive efficiency of the exact beam. The FFT of the target is taken exactly and the exponential is any function that underflows below -K, shown for the correctly rounded one with K = 110."
 },
 "C143": {
  "status": "partial",
  "note": "REFUTED, not proved: C143_in_order_refuted has two targets (one bright pixel each) on a 1 x 2 device whose holograms come exchanged. Where each hologram is in general: C142."
 },
 "C147": {
  "status": "partial",
  "note": "REFUTED, not proved: C147_refuted shows the blank hologram of a spot for every waist from 1.21 mm to 1.25 mm on a DLP9500 in single precision, beside the positive samples of the beam and the positive efficiency of the exact one. C147_overflow is the same for any spectrum at least half as bright at the corner mirror as the beam's centre."
 },
 "C150": {
  "status": "partial",
  "note": "REFUTED, not proved: unknown options are ignored in silence (C150_unknown_option_ignored for all names and values, C150_refuted gives a call)."
 },
 "C153": {
  "status": "partial",
  "note": "REFUTED, not proved: C153_patch_stays_inside_refuted; the witness C153_square_panel is a 2 x 2 panel showing two patterns, where a dark patch around the upper two mirrors turns off the whole first pattern and leaves the second one as it was. Panels that are not square raise instead (C152_patch_on_stack)."
 }
}