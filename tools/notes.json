{
 "C01": {
  "note": "exact characterisation over all integers"
 },
 "C55": {
  "note": "soundness and completeness of the generated wave set against an inductive specification of the waves of a template; uniqueness; absence of aborts; every vertex passes C52's check. Three departures from the English claim are proved as _refuted theorems (half-integer lower bound of the L range, negative M for half-integer J with reflectivity, identical final-state particles escape the Bose rule because their indices differ). Not modelled: removal of Bose duplicates and of decays with equal wave names at the end of generateWaveSet."
 }
}