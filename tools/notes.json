{
 "C41": {
  "status": "partial",
  "note": "Relative to the YAML library (github.com/ghodss/yaml, not in /repo) keeping the meaning of the one text converted; the composition with String and Parse, the error cases and the exception of references are proved without further assumptions."
 },
 "C42": {
  "status": "partial",
  "note": "NewTimeString is proved in full (calendar, text, order; years 0000-9999, false beyond). GetTime is proved relative to the contract of timeutils.ParseTimeStr and time.Parse, which are not in /repo (hypothesis iso_readers, met by a concrete reader)."
 }
}